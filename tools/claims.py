c("C01","proved",["C01_cluster_ranges_tile"])
c("C02","proved",["C02_dof_permutation_bijective"])
c("C03","proved",["C03_cluster_sizes_and_depth"])
c("C04","proved",["C04_block_leaves_tile_matrix"])
c("C05","partial",["C05_admissibility_flags_partial","C05_max_block_size_refuted","C05_admissible_pair_refined_refuted"],
  "The code violates two parts of the property (flag adjusted on a copy; flag computed from the parent pair); both are refuted with witnesses, the rest is proved.")
c("C06","proved",["C06_matvec_is_dense_product","C06_represented_matrix_exists"])
c("C07","proved",["C07_distributed_matvec"])
c("C08","proved",["C08_vector_permutation_invertible"])
c("C09","partial",["C09_reinitialise_block_data_partial","C09_reinitialise_doubles_operator_refuted"],
  "The code violates the property: initialize does not clear the list of owned leaves, so the operator doubles; proved for every H-matrix. Block data stay the same.")
c("C10","proved",["C10_frobenius_norm"],"Complex scalars over Coq's reals; standard-library axioms of the reals.")
c("C13","partial",["C13_near_blocks_compressed_partial","C13_cutoff_has_no_effect_refuted"],
  "The code violates the property: the zero block is always overwritten by an unconditional second compression.")
c("C11","proved",["C11_aca_terminates_with_bounded_rank"])
c("C12","proved",["C12_aca_interpolates","C12_full_rank_is_exact"])
c("C14","proved",["C14_merge_is_smallest_box","C14_distance_is_set_distance","C14_divide_tiles","C14_diameter_and_longest_direction","C14_triangle_box","C14_strong_admissibility_separates","C14_corners"],"Exact real arithmetic.")
c("C51","proved",["C51_dof_bounding_box","C51_extend_is_smallest"],"Exact real arithmetic.")
c("C58","partial",["C58_default_box_neutral_partial","C58_default_box_not_neutral_refuted"],"The code violates the property: numeric_limits<double>::min() is positive.")
c("C59","partial",["C59_created_box_reference_partial","C59_created_box_reference_refuted"],"The code violates the property: reference = (max-min)/2.")
c("C15","proved",["C15_deMorton_morton","C15_morton_deMorton","C15_morton_rejects"],"64-bit wrap-around not modelled (values < 2^33).")
c("C16","proved",["C16_children_of_parent","C16_parent_coordinates","C16_children_tile_parent"],"Tiling over exact reals.")
c("C17","proved",["C17_neighbors_exact","C17_neighbors_symmetric"],"Levels up to 10 (morton throws beyond).")
c("C18","proved",["C18_interaction_list_exact"],"For any emptiness oracle; 'node of the level' means non-empty node, as the code filters empty ones.")
c("C19","proved",["C19_near_far_partition"],"Relative to correct emptiness flags of the source's ancestors; the octree's own flags are C20/C60.")
c("C20","partial",["C20_emptiness_partial","C20_emptiness_refuted"],"The constructor marks parents one level too low (octree_impl.hpp:66-70): refuted on internal levels and for spurious leaves; occupied leaves are never reported empty.")
c("C21","proved",["C21_leaf_contains_point"],"Exact reals.")
c("C60","partial",["C60_own_flags_partial","C60_own_flags_refuted"],"Refuted because of C20; at-most-once holds.")
c("C61","proved",["C61_leaf_entities_partition"],"Entity indices are assumed to be iterated in order 0,1,...")
c("C62","proved",["C62_extended_cube_contains_element"],"Exact reals, non-degenerate elements whose centroid is in the bounding cube.")
c("C63","proved",["C63_element_diameters"],"Exact reals.")

c("C22","proved",["C22_edge_numbering","C22_adjacency_lists"])
c("C66","proved",["C66_ids_unique"])
c("C23","proved",["C23_sons","C23_vertices","C23_sons_orientation_area","C23_son_map","C23_son_domains"],"Vertex positions over exact reals.")
c("C67","proved",["C67_domain_indices_permuted"])
c("C28","proved",["C28_vertices","C28_triangles","C28_cubes","C28_consistent_orientation","C28_positive_area","C28_cover"],"Geometry over exact reals.")
c("C25","proved",["C25_set_algebra","C25_marks"])
c("C26","proved",["C26_closed_domain","C26_open_domain"],"Open domains for edges with at most 256 incident domain elements; beyond that see C64.")
c("C64","partial",["C64_high_valence_partial","C64_high_valence_refuted"],"The code violates the property: the incidence counter is an unsigned char; the exact behaviour (count modulo 256) is proved.")
c("C65","partial",["C65_complement_partial","C65_complement_refuted"],"The code violates the property for negative excluded indices.")
c("C33","proved",["C33_dense_assembly","C33_dense_potential"],"Loads, stores and the mutex interleave arbitrarily; local integrals are an arbitrary function.")
c("C34","proved",["C34_dense_block"],"Relative to a space whose global2localDofs inverts getGlobalDofs (C29-C31 establish it for the spaces); reversed ranges are C68.")
c("C68","partial",["C68_reversed_range_partial","C68_reversed_range_refuted"],"The code violates the property.")
c("C35","proved",["C35_matrix_block","C35_sparse_terms_throw"],"Local integrals are taken at the block's minimum distance. m_indexWithGlobalDofs = true.")
c("C36","proved",["C36_potential_block"])
c("C37","proved",["C37_dof_lists","C37_cache"],"TBB's concurrent_unordered_map find/insert taken as atomic.")
c("C38","proved",["C38_component_lists","C38_cache"],"TBB's concurrent_unordered_map find/insert taken as atomic.")
c("C24","proved",["C24_lazy_get","C24_lazy_once"],"tbb::mutex and tbb::atomic taken as sequentially consistent. barycentricGridSonPair is C69.")
c("C69","partial",["C69_barycentric_pair_partial","C69_barycentric_pair_refuted"],"The code violates the property: the grid pointer is published before the son map is filled and is tested without the lock.")
c("C50","proved",["C50_scattered_range","C50_grain"],"size_t arithmetic modelled modulo 2^64; ranges ending at or below 2^62. Splits only while is_divisible(), as TBB's range concept demands.")
c("C27","partial",["C27_inside_partial","C27_parity_refuted"],"The code violates the property: any non-zero number of crossings counts as inside; exact behaviour proved. Exact rational arithmetic.")
c("C70","partial",["C70_intersection_point_partial","C70_intersection_point_refuted"],"The code violates the property: it adds the offsets to v1 instead of v0; the exact displacement is proved.")
c("C71","proved",["C71_ray_triangle"],"Exact rational arithmetic.")
c("C29","proved",["C29_p1_dofs","C29_space_meets_assembly"])
c("C30","proved",["C30_discontinuous_p1_dofs","C30_piecewise_constant_dofs"],"Flat local dofs of piecewise constants on proper segments: C73.")
c("C31","proved",["C31_rwg_dofs"],"Other modes and valences: C72.")
c("C32","proved",["C32_global_to_flat_matrix"],"Weighted spaces: C74.")
c("C72","partial",["C72_rwg_any_valence_partial","C72_rwg_two_elements_refuted","C72_rwg_element_mode_refuted"],"The code violates the property; exact dofs and weights proved.")
c("C73","partial",["C73_p0_segment_flat_partial","C73_p0_segment_flat_refuted"],"The code violates the property: flatLocalDofCount is the element count of the grid.")
c("C74","partial",["C74_weighted_mapping_partial","C74_weighted_mapping_refuted"],"The code violates the property: entries are always one.")
c("C39","proved",["C39_cache_sequential"],"Concurrency: C77; aliveOperators: C78; equal ids at different addresses: C79.")
c("C40","proved",["C40_sparse_real","C40_sparse_complex"],"Operators constructed with CONJUGATE: C75. Exact arithmetic; uninitialised or NaN content of y modelled by a poison value.")
c("C41","proved",["C41_dense_apply","C41_default_asMatrix","C41_apply_columns","C41_apply_fresh","C41_hmat_apply"],"The overload taking Eigen::Ref does not check sizes in release builds; wrong sizes there are outside the contract.")
c("C42","proved",["C42_local_operators"],"Local matrices are an arbitrary function of the element. Complex result types: C76.")
c("C75","partial",["C75_conjugate_mode_partial","C75_conjugate_mode_refuted"],"The code violates the property: CONJUGATE & (TRANSPOSE|CONJUGATE_TRANSPOSE) is non-zero; exact behaviour (the transpose) proved.")
c("C76","partial",["C76_complex_sparse_partial","C76_complex_sparse_refuted"],"The code violates the property: only real parts are kept; equality proved for real local matrices.")
c("C77","partial",["C77_cache_threads_partial","C77_cache_threads_refuted"],"The code violates the property: NULL may be returned; non-null results are right.")
c("C78","partial",["C78_alive_operators_partial","C78_alive_operators_refuted"],"The code violates the property: the loop condition compares with begin().")
c("C79","partial",["C79_equal_ids_partial","C79_equal_ids_refuted"],"The code violates the property: the hash is taken of the id object's address.")
c("C43","proved",["array_addressing","array_assignment","array_checked_access","array_slice_aliases"],"Sizes are 64-bit unsigned; the product of the extents is assumed to fit in them.")
c("C44","proved",["array_plus_equal_extents","array_times_scalar"],"Exact arithmetic. Different extents: C80.")
c("C80","partial",["array_plus_other_extents_partial","array_plus_other_extents_refuted"],"The code violates the property: the exception is constructed but not thrown; rejection proved when bounds checks are compiled in and some index of the left array is out of range in the right one.")
c("C81","proved",["array_storage_safe"],"A client's memory is assumed to outlive the arrays on it.")
c("C49","proved",["hermite_initialize","hermite_in_bounds","hermite_nodes","hermite_error"],"Exact real arithmetic, real ValueType. The closed end of the range: C82.")
c("C82","partial",["hermite_range_end_partial","hermite_range_end_refuted"],"The code violates the property: x = end reads one past the end; proved for every other point of the range.")
c("C83","proved",["max_distance_bounds"],"Exact real arithmetic, three-dimensional world.")
c("C84","partial",["kernel_interpolation_partial","kernel_interpolation_refuted"],"The code violates the property: for low wave numbers fewer than two samples are taken and set-up throws; proved with error bound when the range holds at least one sampling interval. Real wave numbers.")
c("C45","proved",["topology_classification","topology_symmetric"],"Elements with 3 or 4 distinct vertices. Symmetry up to the order of the two shared vertices.")
c("C47","proved",["singular_rule_triangles","singular_rule_quadrangle","singular_rule_rejects"],"Exact real arithmetic. Quadrilaterals: the code implements coincident pairs only and throws otherwise, which is what is proved.")
c("C85","proved",["duffy_jacobian","duffy_partition","duffy_total_weight"],"Exact real arithmetic. Pairs on finitely many hyperplanes (null sets) excluded from the covering.")
c("C86","proved",["kernel_never_singular"],"Exact real arithmetic; triangles.")
c("C46","proved",["order_lookup","order_lists_checked","order_ranges"],"std::sort is called with <= as comparator: modelled as libstdc++ behaves (insertion for at most 16 entries, undefined for more entries with equal distances). Exact real distances and infinity, no NaN.")
c("C87","proved",["regular_orders","singular_orders","orders_symmetric","element_measures","regular_pairs"],"Exact real arithmetic; int overflow not modelled.")
c("C48","proved",["cache_transparent","cache_builds","local_matrices","cache_complete"],"Integrators are arbitrary functions of descriptor, shapesets and element pair; integrating for one local dof is assumed to give that column or row of the whole local matrix.")

c("C52","proved",["C52_op_algebra","C52_zero_transpose"],"by induction over expression trees; the sparse solver is any function with the transposition laws of a generalised inverse")
c("C53","partial",["C53_adjoint_partial","C53_adjoint_refuted"],"holds for real scalar factors (adjoint) and without sparse and complex dense operators (rmatvec); refuted otherwise")
c("C88","partial",["C88_mismatch_partial","C88_mismatch_refuted"],"broadcasting of dense operators with a dimension 1 and zero operators are the exceptions")

c("C54","proved",["C54_blocked_algebra","C54_block_matrix_exists","C54_blocked_rejects"],"by induction over expressions of blocked operators; wrong operand sizes: C89")
c("C89","partial",["C89_block_mismatch_partial","C89_block_mismatch_refuted"],"The code violates the property: NumPy broadcasts one-entry dimension lists, and superfluous rows of 2-d arrays are ignored.")
c("C56","proved",["C56_history_invisible","C56_cached"],"heap of operators with caches; blocked operators: separate property")
c("C57","proved",["C57_calculus","C57_strong_product","C57_rejects"],"transposes of zero operators and adjoints of complex multiples excluded (C52, C53); other mismatches of spaces: C90")
c("C90","partial",["C90_compatible_spaces_partial","C90_compatible_spaces_refuted"],"The code violates the property: only the numbers of degrees of freedom are compared, so operators on different grids or with spaces of different kinds can be combined.")
c("C91","partial",["C91_blocked_cache_partial","C91_blocked_cache_refuted"],"The code violates the property: __setitem__ does not drop cached weak forms, and recompute=True is not passed on to the parts of sums, multiples and products; proved when no block is assigned after a discretisation that involves it.")
c("C92","partial",["C92_blocked_strong_partial","C92_blocked_strong_refuted"],"The code violates the property: the array of range maps has as many columns as the operator, so operators that are not square have no strong form and cannot be right factors; proved for square ones.")
c("C55","proved",["C55_coefficients","C55_round_trip","C55_projections"],"for functions of any program without the reads refuted in C93")
c("C93","partial",["C93_functions_partial","C93_functions_refuted"],"The code violates the property: projections(d) replaces the dual space before the coefficients are computed, so for a function given by projections another d gives wrong projections and changes the function; multiples and sums lose the dual space once coefficients were read.  Proved for programs without such reads.")
c("C94","proved",["C94_operator_times_function","C94_product","C94_blocked"],"weak forms by C56, C57 and C91")
c("C95","partial",["C95_rejects_partial","C95_rejects_refuted"],"The code violates the property: operators compare only the numbers of degrees of freedom, blocked operators not even these (the array product does).")
c("C96","proved",["C96_assignment","C96_block_spaces"],"invariant over histories")
c("C97","proved",["C97_tensor_blas","C97_tensor_loops"],"exact arithmetic")
c("C98","proved",["C98_pairs_blas","C98_pairs_loops","C98_pairs_real_basis"],"exact arithmetic")
c("C99","partial",["C99_shared_kernel_partial","C99_shared_kernel_refuted"],"The code violates the property: for complex basis functions and a real kernel the tensor rule indexes the kernels by transformation and reads past the end.  No shipped operator combines these.")
c("C100","proved",["C100_tensor_rule","C100_pair_rule","C100_pair_rule_real_basis"],"kernel values arbitrary; exact arithmetic")
c("C101","proved",["C101_continuous_polynomial_dofs","C101_order_refused"],"triangles; the code refuses quadrilaterals")
c("C102","proved",["C102_discontinuous_polynomial_dofs","C102_refused"],"triangles")
c("C103","proved",["C103_super_space_contains"],"order 1 uses the separate linear space, also modelled")
c("C104","partial",["C104_flat_dofs_in_global_order_partial","C104_flat_dofs_in_global_order_refuted"],"The code violates the property: the data are those of global dof i, but from order 2 on flat local dofs and global dofs are numbered differently; proved for orders 0 and 1.")
c("C105","proved",["C105_conormal_exists","C105_raviart_thomas_conforming","C105_rwg_conforming"],"Dune's reference functions, Jacobian and integration element are modelled by their documented values; exact arithmetic")
c("C106","proved",["C106_surface_divergence","C106_divergence_of_basis"],"exact arithmetic")
c("C107","proved",["C107_nedelec_conforming","C107_surface_curl_value","C107_curl_is_divergence"],"exact arithmetic")
c("C108","proved",["C108_normal","C108_surface_gradient"],"exact arithmetic; Dune's pseudo-inverse modelled by its formula")
c("C109","proved",["C109_polynomial_functions","C109_linear_functions"],"Dune's Pk2D and P1 bases are modelled by their documented formulas; exact arithmetic")
c("C110","partial",["C110_vertex_values_partial","C110_vertex_values_refuted"],"The code violates the property: for strictly_on_segment a later element outside the segment overwrites the value by 0; proved for spaces that are not strict.")
c("C111","partial",["C111_integral_partial","C111_integral_refuted"],"The code violates the property: it raises for vector-valued and for complex functions; proved for real scalar ones.")
c("C112","proved",["C112_kernels_are_derivatives","C112_laplace","C112_symmetry","C112_dependencies"],"exact real arithmetic; interpolated kernels are not covered here (C49, C82-C84); compiled with NDEBUG")
c("C113","proved",["C113_potentials_solve_the_equation","C113_gradients_and_divergence","C113_evaluation_succeeds","C113_additive"],"exact arithmetic; the surface enters through arbitrary quadrature points, normals, weights and density values")
c("C114","proved",["C114_far_field_limits"],"exact arithmetic")
c("C115","proved",["C115_outgoing"],"exact arithmetic")
c("C116","proved",["C116_local_matrices","C116_size_mismatch"],"for rules with at least one point; transformations, kernels and integrals are parameters that read only the data they declare")
c("C117","proved",["C117_basis_data_cache","C117_local_matrices"],"the concurrent map's find and insert are atomic steps")
c("C118","proved",["C118_potential_matrices"],"for kernels that ask only for positions at the evaluation point (all kernels of the library used in potentials)")
c("C119","proved",["C119_space_preprocessing","C119_project"],"exact arithmetic; the assembly of the building blocks is assumed to give Galerkin matrices (C36, C37, C97-C100, C116); inclusion in the super space is C103, C104 for scalar spaces")
c("C120","proved",["C120_hypersingular","C120_factory_slp"],"exact arithmetic; the building blocks are assumed to give Galerkin matrices")
c("C121","proved",["C121_multitrace_linear","C121_multitrace_dual","C121_multitrace_target_linear","C121_multitrace_target_dual","C121_pair_linear","C121_pair_dual"],"exact arithmetic; the building blocks are assumed to give Galerkin matrices")
c("C122","partial",["C122_factory_partial","C122_options","C122_factory_refuted"],"the code violates the rest: vector spaces accept negative orders, barycentric and dual spaces ignore domains, without an error")
c("C123","proved",["C123_attributes"],"grids compared by identity, barycentric_grid() made once per grid, no refinement between the calls")
c("C124","proved",["C124_equal_spaces","C124_equality","C124_segments"],"excludes the private attribute _hdiv_space of rotated Buffa-Christiansen spaces, whose key is None so that any two compare equal")
c("C125","proved",["C125_son_triangles","C125_sons_cover","C125_son_map","C125_linear","C125_discontinuous_linear"],"exact real arithmetic; Dune's geometry map and P1 basis assumed")
c("C126","partial",["C126_vector_partial","C126_vector_refuted"],"The code violates the rest: where three triangles meet in an edge, the coarse space has a dof and the barycentric one has none; proved for grids in which at most two triangles meet in an edge.")
c("C127","proved",["C127_dual_cells","C127_cells_touch_vertex","C127_constants"],"exact arithmetic")
c("C128","proved",["C128_dual_functions","C128_div_conforming","C128_rotated"],"exact real arithmetic; Dune's geometry map, Jacobian and RT basis assumed; the vertex numbering of the refinement is the one C23 proves")
c("C129","partial",["C129_construction_ends_partial","C129_construction_ends_refuted","C129_bad_orientation_refuted"],"The code violates the rest: on two triangles of opposite orientation both spaces read a vector at index -1, and the rotated space lacks the check of the other one and runs for ever on two pairs of triangles that share a vertex; proved for BC, on every input.")
c("C130","proved",["C130_import_ascii","C130_import_binary"],"printing and parsing of floating point numbers and the order in which argsort returns equal values are parameters; building the Dune grid from the arrays is not modelled; Python 3, little endian")
c("C131","proved",["C131_data_set_ascii","C131_data_set_binary","C131_export"],"for functions of one type and one number of components, a time for each, no transformation; the rest is C133-C138")
c("C132","proved",["C132_round_trip_ascii","C132_round_trip_binary"],"printing and parsing of floating point numbers is a parameter; binary files without data (C135)")
c("C133","partial",["C133_domain_indices_partial","C133_import_partial","C133_domain_indices_refuted"],"the code violates the rest: export passes no domain indices, all are written as 0")
c("C134","partial",["C134_ids_partial","C134_ids_ignored","C134_ids_refuted"],"the code violates the rest: ids given to export never reach a Gmsh file; with export_data_sets they do (C131)")
c("C135","partial",["C135_binary_data_partial","C135_binary_data_refuted"],"the code violates the rest: the bytes of the data are decoded as UTF-8 text, which raises for the value 1.0")
c("C136","partial",["C136_series_partial","C136_series_refuted","C136_mixed_types_refuted"],"the code violates the rest: the default time steps are one, so two functions raise an exception, and the type of the first function decides whether imaginary parts are written")
c("C137","partial",["C137_transformation_partial","C137_modes_partial","C137_components_raise","C137_transformation_refuted"],"the code violates the rest: 'abs', 'abs_squared' and 'log_abs' of functions with several components raise an exception")
c("C138","partial",["C138_several_data_sets_partial","C138_several_data_sets_refuted"],"the code violates the rest: default ids of the first data set are used for the others")
c("C139","partial",["C139_dangling_partial","C139_dangling_binary_partial","C139_dangling_refuted"],"the code violates the rest: node 0 and some negative ids count from the end of the list")
c("C140","proved",["C140_import_ends"],"")
c("C141","proved",["C141_gmres","C141_gmres_applied","C141_cg","C141_square"],"SciPy's iterations are parameters: code 0 means that the system is solved up to the tolerance")
c("C142","proved",["C142_strong","C142_strong_applied"],"")
c("C143","partial",["C143_other_space_partial","C143_other_space_refuted"],"the code violates the rest: only the numbers of degrees of freedom are compared")
c("C144","partial",["C144_projected_rhs_partial","C144_projected_rhs_refuted"],"the code violates the rest: projections onto another dual space are taken for those onto the dual space of A (grid_function.py: projections), and the solver reports success")
c("C145","proved",["C145_lu"],"")
c("C146","partial",["C146_lu_factors_partial","C146_lu_factors_refuted"],"the code violates the rest: compute_lu_factors raises for every operator, and lu for those stored sparse")
c("C147","proved",["C147_blocked_weak","C147_blocked_square","C147_blocked_strong"],"")
c("C148","partial",["C148_rhs_list_partial","C148_short_partial","C148_rhs_list_refuted"],"the code violates the rest: with the weak form superfluous functions are ignored, with the strong form only the sum of the numbers of degrees of freedom counts")
c("C149","proved",["C149_evaluate","C149_linear"],"")
c("C150","partial",["C150_mismatch_partial","C150_mismatch_refuted"],"the code violates the rest: of the spaces only the numbers of degrees of freedom are compared, and a * P raises")

c("C151","proved",["C151_local_contributions","C151_integrators"],"exact arithmetic; kernels, shape functions and geometry are parameters that use only the data they declare")
c("C152","proved",["C152_potential_blocks"],"exact arithmetic; the choice of rules succeeds (C153)")
c("C153","proved",["C153_orders","C153_choice"],"exact real arithmetic")
c("C154","proved",["C154_row_geometry"],"")
c("C155","proved",["C155_dof_volumes","C155_zero_tests"],"")
c("C156","partial",["C156_zero_tests_of_potentials_partial","C156_zero_tests_of_potentials_refuted"],"the code violates the rest: the vector of volumes has one entry per point, so for potentials with several components the rows from the number of points on read behind its end; proved for scalar potentials")
c("C157","proved",["C157_refine_ends"],"exact real arithmetic; edges of the Dune grid identified with pairs of vertices")
c("C158","proved",["C158_surface"],"")
c("C159","proved",["C159_smallest","C159_order"],"")
c("C160","proved",["C160_tiles"],"exact real arithmetic")
c("C161","proved",["C161_quality","C161_longest"],"exact real arithmetic")
c("C162","partial",["C162_no_hanging_nodes_partial","C162_no_hanging_nodes_refuted"],"the code violates the rest: where three or more elements meet in an edge only the first neighbour is told about the new vertex, so that the others keep the whole edge; proved for surfaces")
c("C163","partial",["C163_marks_partial","C163_marks_refuted"],"the code violates the rest: get_mark indexes a set and so raises once anything has been marked; clear_marks and refine raise before anything has been marked")
c("C164","proved",["C164_connectivity"],"")
c("C165","proved",["C165_singular_part","C165_different_grids","C165_rest"],"dof weights are real, as in every space of the library")
c("C166","proved",["C166_interpolation","C166_reproduces","C166_nodes"],"exact real arithmetic")
c("C167","proved",["C167_derivative"],"exact real arithmetic")
c("C168","proved",["C168_children"],"exact real arithmetic")
c("C169","proved",["C169_derivative3d"],"exact real arithmetic")
c("C170","proved",["C170_regular_sphere_surface"],"int overflow of node numbers (n > 14) not modelled")
c("C171","proved",["C171_regular_sphere_geometry"],"exact real arithmetic")
c("C172","proved",["C172_entity_from_index"],"views never change after construction")
c("C173","partial",["C173_later_calls_partial","C173_first_call","C173_entity_from_insertion_index_refuted"],"the loop that fills the cache assigns to the parameter, so the first call returns the entity visited last, whatever was asked for; all later calls are right")
c("C174","proved",["C174_dof_to_vertex"],"np.int needs an old numpy")
c("C175","proved",["C175_trace"],"the boundary grid is built from the vertices and cells of the boundary mesh; dolfin's maps are parameters")
c("C176","proved",["C176_element_data_round_trip"],"both arrays have a column; values fit double and intc; Dune's numbering is any pair of permutations and every inserted vertex is an entity")
c("C177","partial",["C177_enough_rows_partial","C177_rows_checked_refuted"],"the number of rows is never checked: the C++ check sees the rows of an Eigen::Map, always 3; with at least three rows nothing outside the arrays is read, but the columns are taken apart wrongly when there are more")
c("C178","proved",["C178_structured_planes","C178_structured_rejects"],"exact reals; Dune's numbering of the intermediate grid is arbitrary")
c("C179","proved",["C179_single_dof"],"")
c("C180","proved",["C180_bounding_box"],"exact reals; rounding of the mean could violate the assertions by an ulp")
