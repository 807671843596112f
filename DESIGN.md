# Formal model of bempp in Rocq (Coq 8.16.1): design

## Approach
* Pure, total, computable Gallina models of the C++ and Python functions, one file
  per component (`*Model.v`), an independent specification where the statement
  needs one (`*Spec.v` or the top of the property file), proofs (`*Proofs.v`) and
  property files (`*Props.v`) that contain only `Theorem ... exact lemma.` followed
  by `Print Assumptions`, with `Example`s showing the hypotheses are satisfiable.
* Scalars: C++ `float/double/complex` are modelled by an arbitrary commutative ring
  (with a conjugation where the code conjugates), passed through `Section`
  variables, i.e. every theorem is universally quantified over the ring.  Rounding is
  NOT modelled: "equal" means equal in exact arithmetic.
* Every floating-point *comparison* that steers control flow (sort order along the
  main direction, admissibility, ACA convergence, distance brackets) is an arbitrary
  oracle, so theorems hold for every outcome of rounding.
* Threads: a parallel loop whose body performs mutex-protected `+=` is modelled as an
  arbitrary interleaving of atomic updates; theorems quantify over all of them.
* Undefined behaviour and exceptions are distinct outcomes (`option`/result types).
* If the code violates the property, a `*_refuted` theorem gives the witness and a
  `*_partial` theorem states what does hold.

## Plan per group of properties
| files | properties | modelled | proof | not modelled |
|--|--|--|--|--|
| HMatTree*, HMatBlockProofs | C01-C05 | cluster trees (recursion on size, arbitrary sort oracle), dof permutations, block cluster trees, admissibility | induction over the recursion and over trees; C05 refuted in two points, the rest partial | geometry enters only through the oracle of comparisons and boxes |
| HMatApply*, HMatNorm*, ComplexR | C06-C10, C13 | HMatrix::initialize, apply in all transpose modes, permutations of vectors, distributed apply, leaf data, frobeniusNorm, compressBlock with cutoff | sums over the tiling of C04, any order of additions; C09, C13 refuted | MPI transport is a permutation of partial sums; rounding |
| Aca* | C11, C12 | the ACA sweep with oracles for convergence and random indices | invariant over the steps | rounding; the stopping criterion is an oracle |
| Box* | C14, C51, C58, C59 | bounding boxes of hmat and common/ | order reasoning over the reals; C58, C59 refuted | NaN, infinities, rounding |
| Fmm*, FmmGeom* | C15-C21, C60-C63 | Morton codes, octree levels, neighbour and interaction lists, leaf lists, extended cubes | bit lemmas, arithmetic, induction on levels; C20, C60 refuted | levels above 10 (the code throws); transformation operators of the FMM, 64-bit wrap-around |
| Grid*, GridGeom* | C22, C23, C28, C66, C67 | edge numbering, ids, barycentric refinement, structured grids, grid factory with domain indices | fold invariants | Dune's iterators are lists; adaptive refinement |
| Seg* | C25, C26, C64, C65 | grid segments as sets, open and closed domains | set reasoning, counting; C64, C65 refuted |  |
| Asm*, Par, DofList*, Cache*, HBlock* | C33-C38, C68 | dense assembly and block assembly, mutex and interleavings, local dof lists, component lists, entry accessors of H-matrices, potential assembly | permutation invariance, interleaving semantics with loads and stores; C68 refuted | local integrals are a parameter; TBB's map is atomic |
| Lazy* | C24, C69 | lazy.hpp and ConcreteGrid's lazily created members, small-step interleavings | reachability invariants; C69 refuted | sequentially consistent memory |
| Range* | C50 | scattered_range.hpp with 64-bit arithmetic | induction over split histories |  |
| Inside* | C27, C70, C71 | ray/triangle test and areInside over rationals | case analysis, field; C27, C70 refuted | rounding; quadrilaterals |
| Space* | C29-C32, C72-C74 | dof numbering of P1, P0, DP1, RWG spaces, global-to-flat matrix | fold invariants; C72-C74 refuted | one-dimensional grids, bounding boxes |
| Oper*, LocalOp* | C40-C42, C75, C76 | discrete dense/sparse/H operators, BLAS contract, assembly of local operators | algebra over a ring; C75, C76 refuted | Eigen's products are the textbook sums |
| DiscCache* | C39, C77-C79 | cache of discrete operators with weak pointers, threads | state machine invariants; C77-C79 refuted | C++ memory model |
| Array* | C43, C44, C80, C81 | 2d/3d/4d arrays: addressing, slices, arithmetic, ownership | arithmetic modulo 2^64, heap invariant; C80 refuted |  |
| Hermite* | C49, C82-C84 | Hermite interpolator, set-up of interpolated kernels, maxDistance | Rolle-type error bound over the reals; C82, C84 refuted | rounding |
| Quad*, Duffy*, Topo | C45, C47, C85, C86 | element pair topology, Duffy rules, remapping | real algebra, enumeration of cases | quadrilaterals other than coincident (code throws) |
| Acc* | C46, C87 | accuracy options, descriptor selection | list induction | int overflow; std::sort with <= as libstdc++ does it |
| LocalCache* | C48 | local assembler with its cache of singular pairs | invariant over requests | parallel loop over disjoint slots is sequential |
| MatAlg, PyOp*, PyBlock* | C52-C54, C88, C89 | Python discrete operators and blocked ones, SciPy's LinearOperator protocol | structural induction over expressions; C53, C88, C89 refuted | dtypes |
| PyBop*, PyBbop*, PyGf* | C55-C57, C90-C96 | boundary operators, blocked operators, grid functions as a heap of objects with caches | invariants over histories; C90-C93, C95 refuted | labels, logs, negative indices |
| CxRing, Intg*, IntgOp* | C97-C100 | test-kernel-trial integrals with and without BLAS, wiring of scalar operators | sums over a commutative ring | kernel values are arbitrary |
| Poly*, Lag* | C101-C104, C109, C110 | polynomial spaces of any order, evaluation | fold invariants, barycentric coordinates; C104, C110 refuted | Dune's Pk2D, P1 bases modelled from their documentation |
| Vec* | C105-C108 | geometry of a triangle, RT/Nedelec shapesets, surface differential operators | real algebra | Dune's geometry map, Jacobian, pseudo-inverse and RT basis modelled by their formulas |
| GfInt* | C111 | GridFunction.integrate with NumPy semantics | case analysis; C111 refuted for complex and vector functions |  |
| Kern* | C112-C115 | all kernel functors, wave number wiring, far fields | derivatives and limits over the reals (own derivative notion from Coq's Reals) | rounding; interpolated kernels see C49, C82-C84 |
| NumInt* | C116-C118 | separable and nonseparable integrators, caching of geometry, kernel-trial integrator | equality of evaluation orders, interleavings for the shared map | CUDA paths |
| Gal* | C119-C121 | operator factories of the Python API: space preprocessing, use_slp, multitrace | expressions of C57 with Galerkin matrices as atoms | assembly of atoms (C33-C36, C97-C100, C116) |
| Fsp* | C122-C124 | function_space factory, attributes, equality | case analysis, induction over chains of attributes; C122 refuted | refinement between calls |
| Bary*, Bc* | C125-C129 | spaces on the barycentric refinement, Buffa-Christiansen spaces | geometry over the reals, flux bookkeeping; C126, C129 refuted | bounding boxes; Dune's maps as for C105 |
| File* | C130-C140 | Gmsh reader and writer on byte strings, export/import of the general interface | parser correctness by induction over sections, round trips, termination by decreasing input; C133-C139 refuted in part | printing, parsing and packing of floating point numbers are parameters; the file system; creation of the Dune grid from the arrays |
| Slv*, Pot* | C141-C150 | gmres, cg, lu for operators, gmres for blocked operators; potential operators | refinement to the calculus of C55, C57, C91-C94, SciPy as parameter; C143, C144, C146, C148, C150 refuted in part | tolerances, restarts, logging; assembly of potentials |
| PotAsm* | C151-C156 | local assembler, quadrature selection and H-matrix accessor of potential operators, volumes for the pivot tests | refinement of the batched loops to pointwise sums, cache argument of C37; C156 refuted in part | floating point; kernels and geometry maps are parameters |
| Ref* | C157-C163 | marks, reference edges and the loop and reconstruction of GridView.refine as transition system; geometry over R | invariant of the loop (least closed edge set), decision of the pair incidences of the children per pattern by a symbolic table, sums over blocks, bisection as a relation with quality estimate; C162, C163 refuted in part | floating point; Dune edge numbering abstracted to vertex pairs |
| Sing* | C164-C165 | connectivity matrices, assembly of the singular part from python | counting in coordinate matrices, sets as duplicate-free lists in any order, sums over supports (C33) | floating point; local integrals are a parameter |
| Cheb* | C166-C169 | Chebyshev nodes, barycentric weights, interpolation, differentiation matrix, child interpolation, 3d derivatives over R | trigonometric sums show that the weighted sum of the values of polynomials of lower degree vanishes; synthetic division; stdlib derivative as specification | floating point; vectors of other sizes; order 0 (asserted) |
| Sph* | C170, C171 | SphereMesh: octahedron, refinement with the map of lines, projection, placing | the final map of lines is the deduplicated list of sides, so midpoints are a symmetric injective function of sides; twelve codes for the directed sides of the children; triangles spanned by three directions with nonnegative dot products and positive determinant are preserved | floating point; int overflow |
| Ent* | C172, C173 | the reverse maps of GridView and the insertion index dictionaries of the core Grid, with their caches, over histories of calls | the cache is the inverse of a permutation; induction over the history | partially filled caches after exceptions are modelled but no theorem covers them |
| Trace* | C174, C175 | p1_dof_to_vertex_matrix and p1_trace on the P1 dof map of SpaceModel; scipy coo matrices with and without shape | each matrix has a single one per row or column; the whole-grid P1 dof of a vertex is its index | dolfin; np.int |
| Eda* | C176, C177, C178 | grid_from_element_data through the Fortran-order memory and the Eigen map, validation, raw element data of the leaf view under any numbering, structured_grid with axis and offset | the store loops realise the numbering; the lattice loop is a permutation of the cells; vector algebra over R | numpy conversions; empty arrays |
| Uss* | C179, C180 | UnitScalarSpace: dof assignment loop, dof maps, position and bounding box over exact reals | induction over the element list | getFlatLocalDofPositions and boxes; weights |

No property on the list was found to be inexpressible; none is `not_applicable`.

## Trusted base
* Coq 8.16.1's kernel (and `coqchk`, which accepts the development); `vm_compute` is used for closed examples only.
* The reading of the source: every definition of a model cites the lines it models, simplifications are stated there. Nothing of /repo is executed or extracted.
* The libraries under the code (Dune, Eigen, BLAS, TBB, NumPy, SciPy, the C++ and Python run times) behave as the comments of the models say.
* Axioms: none of our own. `Print Assumptions` of each theorem lists a subset of these axioms of Coq's standard library, all of which come with its real numbers:
  S = `ClassicalDedekindReals.sig_forall_dec`, N = `ClassicalDedekindReals.sig_not_dec`, F = `FunctionalExtensionality.functional_extensionality_dep`, C = `Classical_Prop.classic`.
* No functors, module types, `Admitted`, or disabled checks.

### Assumptions of each theorem ("-": closed under the global context)
| property | theorem: axioms |
|--|--|
| C01 | C01_cluster_ranges_tile: - |
| C02 | C02_dof_permutation_bijective: - |
| C03 | C03_cluster_sizes_and_depth: - |
| C04 | C04_block_leaves_tile_matrix: - |
| C05 | C05_admissibility_flags_partial: -; C05_max_block_size_refuted: -; C05_admissible_pair_refined_refuted: - |
| C06 | C06_matvec_is_dense_product: -; C06_represented_matrix_exists: - |
| C07 | C07_distributed_matvec: - |
| C08 | C08_vector_permutation_invertible: - |
| C09 | C09_reinitialise_block_data_partial: -; C09_reinitialise_doubles_operator_refuted: - |
| C10 | C10_frobenius_norm: NSF |
| C13 | C13_near_blocks_compressed_partial: -; C13_cutoff_has_no_effect_refuted: - |
| C11 | C11_aca_terminates_with_bounded_rank: - |
| C12 | C12_aca_interpolates: -; C12_full_rank_is_exact: - |
| C14 | C14_merge_is_smallest_box: NSF; C14_distance_is_set_distance: NSF; C14_divide_tiles: NSF; C14_diameter_and_longest_direction: NSF; C14_triangle_box: NSF; C14_strong_admissibility_separates: NSF; C14_corners: S |
| C51 | C51_dof_bounding_box: SF; C51_extend_is_smallest: SF |
| C58 | C58_default_box_neutral_partial: NSF; C58_default_box_not_neutral_refuted: NSF |
| C59 | C59_created_box_reference_partial: SF; C59_created_box_reference_refuted: SF |
| C15 | C15_deMorton_morton: -; C15_morton_deMorton: -; C15_morton_rejects: - |
| C16 | C16_children_of_parent: -; C16_parent_coordinates: -; C16_children_tile_parent: SF |
| C17 | C17_neighbors_exact: -; C17_neighbors_symmetric: - |
| C18 | C18_interaction_list_exact: - |
| C19 | C19_near_far_partition: - |
| C20 | C20_emptiness_partial: -; C20_emptiness_refuted: - |
| C21 | C21_leaf_contains_point: SF |
| C60 | C60_own_flags_partial: -; C60_own_flags_refuted: - |
| C61 | C61_leaf_entities_partition: - |
| C62 | C62_extended_cube_contains_element: NSF |
| C63 | C63_element_diameters: NSF |
| C22 | C22_edge_numbering: -; C22_adjacency_lists: - |
| C66 | C66_ids_unique: - |
| C23 | C23_sons: -; C23_vertices: -; C23_sons_orientation_area: SF; C23_son_map: -; C23_son_domains: - |
| C67 | C67_domain_indices_permuted: - |
| C28 | C28_vertices: -; C28_triangles: -; C28_cubes: -; C28_consistent_orientation: -; C28_positive_area: SF; C28_cover: SF |
| C25 | C25_set_algebra: -; C25_marks: - |
| C26 | C26_closed_domain: -; C26_open_domain: - |
| C64 | C64_high_valence_partial: -; C64_high_valence_refuted: - |
| C65 | C65_complement_partial: -; C65_complement_refuted: - |
| C33 | C33_dense_assembly: -; C33_dense_potential: - |
| C34 | C34_dense_block: - |
| C68 | C68_reversed_range_partial: -; C68_reversed_range_refuted: - |
| C35 | C35_matrix_block: -; C35_sparse_terms_throw: - |
| C36 | C36_potential_block: - |
| C37 | C37_dof_lists: -; C37_cache: - |
| C38 | C38_component_lists: -; C38_cache: - |
| C24 | C24_lazy_get: -; C24_lazy_once: - |
| C69 | C69_barycentric_pair_partial: -; C69_barycentric_pair_refuted: - |
| C50 | C50_scattered_range: -; C50_grain: - |
| C27 | C27_inside_partial: -; C27_parity_refuted: - |
| C70 | C70_intersection_point_partial: -; C70_intersection_point_refuted: - |
| C71 | C71_ray_triangle: - |
| C29 | C29_p1_dofs: -; C29_space_meets_assembly: - |
| C30 | C30_discontinuous_p1_dofs: -; C30_piecewise_constant_dofs: - |
| C31 | C31_rwg_dofs: - |
| C32 | C32_global_to_flat_matrix: - |
| C72 | C72_rwg_any_valence_partial: -; C72_rwg_two_elements_refuted: -; C72_rwg_element_mode_refuted: - |
| C73 | C73_p0_segment_flat_partial: -; C73_p0_segment_flat_refuted: - |
| C74 | C74_weighted_mapping_partial: -; C74_weighted_mapping_refuted: - |
| C39 | C39_cache_sequential: - |
| C40 | C40_sparse_real: -; C40_sparse_complex: - |
| C41 | C41_dense_apply: -; C41_default_asMatrix: -; C41_apply_columns: -; C41_apply_fresh: -; C41_hmat_apply: - |
| C42 | C42_local_operators: - |
| C75 | C75_conjugate_mode_partial: -; C75_conjugate_mode_refuted: - |
| C76 | C76_complex_sparse_partial: -; C76_complex_sparse_refuted: - |
| C77 | C77_cache_threads_partial: -; C77_cache_threads_refuted: - |
| C78 | C78_alive_operators_partial: -; C78_alive_operators_refuted: - |
| C79 | C79_equal_ids_partial: -; C79_equal_ids_refuted: - |
| C43 | array_addressing: -; array_assignment: -; array_checked_access: -; array_slice_aliases: - |
| C44 | array_plus_equal_extents: -; array_times_scalar: - |
| C80 | array_plus_other_extents_partial: -; array_plus_other_extents_refuted: - |
| C81 | array_storage_safe: - |
| C49 | hermite_initialize: SF; hermite_in_bounds: SF; hermite_nodes: SF; hermite_error: NSFC |
| C82 | hermite_range_end_partial: SF; hermite_range_end_refuted: SF |
| C83 | max_distance_bounds: NSF |
| C84 | kernel_interpolation_partial: NSFC; kernel_interpolation_refuted: NSF |
| C45 | topology_classification: -; topology_symmetric: - |
| C47 | singular_rule_triangles: SF; singular_rule_quadrangle: S; singular_rule_rejects: S |
| C85 | duffy_jacobian: SF; duffy_partition: SF; duffy_total_weight: SF |
| C86 | kernel_never_singular: SF |
| C46 | order_lookup: SF; order_lists_checked: SF; order_ranges: SF |
| C87 | regular_orders: NSF; singular_orders: NSF; orders_symmetric: NSF; element_measures: NSF; regular_pairs: NSF |
| C48 | cache_transparent: -; cache_builds: NSF; local_matrices: NSF; cache_complete: NSF |
| C52 | C52_op_algebra: -; C52_zero_transpose: - |
| C53 | C53_adjoint_partial: -; C53_adjoint_refuted: - |
| C88 | C88_mismatch_partial: -; C88_mismatch_refuted: - |
| C54 | C54_blocked_algebra: -; C54_block_matrix_exists: -; C54_blocked_rejects: - |
| C89 | C89_block_mismatch_partial: -; C89_block_mismatch_refuted: - |
| C56 | C56_history_invisible: -; C56_cached: - |
| C57 | C57_calculus: -; C57_strong_product: -; C57_rejects: - |
| C90 | C90_compatible_spaces_partial: -; C90_compatible_spaces_refuted: - |
| C91 | C91_blocked_cache_partial: -; C91_blocked_cache_refuted: - |
| C92 | C92_blocked_strong_partial: -; C92_blocked_strong_refuted: - |
| C55 | C55_coefficients: -; C55_round_trip: -; C55_projections: - |
| C93 | C93_functions_partial: -; C93_functions_refuted: - |
| C94 | C94_operator_times_function: -; C94_product: -; C94_blocked: - |
| C95 | C95_rejects_partial: -; C95_rejects_refuted: - |
| C96 | C96_assignment: -; C96_block_spaces: - |
| C97 | C97_tensor_blas: -; C97_tensor_loops: - |
| C98 | C98_pairs_blas: -; C98_pairs_loops: -; C98_pairs_real_basis: - |
| C99 | C99_shared_kernel_partial: -; C99_shared_kernel_refuted: - |
| C100 | C100_tensor_rule: -; C100_pair_rule: -; C100_pair_rule_real_basis: - |
| C101 | C101_continuous_polynomial_dofs: -; C101_order_refused: - |
| C102 | C102_discontinuous_polynomial_dofs: -; C102_refused: - |
| C103 | C103_super_space_contains: - |
| C104 | C104_flat_dofs_in_global_order_partial: -; C104_flat_dofs_in_global_order_refuted: - |
| C105 | C105_conormal_exists: NSF; C105_raviart_thomas_conforming: NSF; C105_rwg_conforming: NSF |
| C106 | C106_surface_divergence: NSF; C106_divergence_of_basis: NSF |
| C107 | C107_nedelec_conforming: NSF; C107_surface_curl_value: NSF; C107_curl_is_divergence: NSF |
| C108 | C108_normal: NSF; C108_surface_gradient: NSF |
| C109 | C109_polynomial_functions: SF; C109_linear_functions: SF |
| C110 | C110_vertex_values_partial: SF; C110_vertex_values_refuted: SF |
| C111 | C111_integral_partial: SF; C111_integral_refuted: S |
| C112 | C112_kernels_are_derivatives: NSF; C112_laplace: NSF; C112_symmetry: NSF; C112_dependencies: NSF |
| C113 | C113_potentials_solve_the_equation: NSF; C113_gradients_and_divergence: NSF; C113_evaluation_succeeds: NSF; C113_additive: NSF |
| C114 | C114_far_field_limits: NSF |
| C115 | C115_outgoing: NSF |
| C116 | C116_local_matrices: -; C116_size_mismatch: - |
| C117 | C117_basis_data_cache: -; C117_local_matrices: - |
| C118 | C118_potential_matrices: - |
| C119 | C119_space_preprocessing: -; C119_project: - |
| C120 | C120_hypersingular: -; C120_factory_slp: - |
| C121 | C121_multitrace_linear: -; C121_multitrace_dual: -; C121_multitrace_target_linear: -; C121_multitrace_target_dual: -; C121_pair_linear: -; C121_pair_dual: - |
| C122 | C122_factory_partial: -; C122_options: -; C122_factory_refuted: - |
| C123 | C123_attributes: - |
| C124 | C124_equal_spaces: -; C124_equality: -; C124_segments: - |
| C125 | C125_son_triangles: SF; C125_sons_cover: SF; C125_son_map: -; C125_linear: SF; C125_discontinuous_linear: SF |
| C126 | C126_vector_partial: NSF; C126_vector_refuted: SF |
| C127 | C127_dual_cells: SF; C127_cells_touch_vertex: SF; C127_constants: SF |
| C128 | C128_dual_functions: NSF; C128_div_conforming: NSF; C128_rotated: NSF |
| C129 | C129_construction_ends_partial: SF; C129_construction_ends_refuted: SF; C129_bad_orientation_refuted: SF |
| C130 | C130_import_ascii: -; C130_import_binary: - |
| C131 | C131_data_set_ascii: -; C131_data_set_binary: -; C131_export: - |
| C132 | C132_round_trip_ascii: -; C132_round_trip_binary: - |
| C133 | C133_domain_indices_partial: -; C133_import_partial: -; C133_domain_indices_refuted: - |
| C134 | C134_ids_partial: -; C134_ids_ignored: -; C134_ids_refuted: - |
| C135 | C135_binary_data_partial: -; C135_binary_data_refuted: - |
| C136 | C136_series_partial: -; C136_series_refuted: -; C136_mixed_types_refuted: - |
| C137 | C137_transformation_partial: -; C137_modes_partial: -; C137_components_raise: -; C137_transformation_refuted: - |
| C138 | C138_several_data_sets_partial: -; C138_several_data_sets_refuted: - |
| C139 | C139_dangling_partial: -; C139_dangling_binary_partial: -; C139_dangling_refuted: - |
| C140 | C140_import_ends: - |
| C141 | C141_gmres: -; C141_gmres_applied: -; C141_cg: -; C141_square: - |
| C142 | C142_strong: -; C142_strong_applied: - |
| C143 | C143_other_space_partial: -; C143_other_space_refuted: - |
| C144 | C144_projected_rhs_partial: -; C144_projected_rhs_refuted: - |
| C145 | C145_lu: - |
| C146 | C146_lu_factors_partial: -; C146_lu_factors_refuted: - |
| C147 | C147_blocked_weak: -; C147_blocked_square: -; C147_blocked_strong: - |
| C148 | C148_rhs_list_partial: -; C148_short_partial: -; C148_rhs_list_refuted: - |
| C149 | C149_evaluate: -; C149_linear: - |
| C150 | C150_mismatch_partial: -; C150_mismatch_refuted: - |
| C151 | C151_local_contributions: NSF; C151_integrators: - |
| C152 | C152_potential_blocks: NSF |
| C153 | C153_orders: NSF; C153_choice: NSF |
| C154 | C154_row_geometry: - |
| C155 | C155_dof_volumes: SF; C155_zero_tests: SF |
| C156 | C156_zero_tests_of_potentials_partial: SF; C156_zero_tests_of_potentials_refuted: SF |
| C157 | C157_refine_ends: SF |
| C158 | C158_surface: SF |
| C159 | C159_smallest: SF; C159_order: SF |
| C160 | C160_tiles: SF |
| C161 | C161_quality: SF; C161_longest: NSF |
| C162 | C162_no_hanging_nodes_partial: SF; C162_no_hanging_nodes_refuted: NSF |
| C163 | C163_marks_partial: -; C163_marks_refuted: SF |
| C164 | C164_connectivity: - |
| C165 | C165_singular_part: -; C165_different_grids: -; C165_rest: - |
| C166 | C166_interpolation: NSF; C166_reproduces: NSF; C166_nodes: NSF |
| C167 | C167_derivative: NSF |
| C168 | C168_children: NSF |
| C169 | C169_derivative3d: NSF |
| C170 | C170_regular_sphere_surface: NSF |
| C171 | C171_regular_sphere_geometry: NSF |
| C172 | C172_entity_from_index: - |
| C173 | C173_later_calls_partial: -; C173_first_call: -; C173_entity_from_insertion_index_refuted: - |
| C174 | C174_dof_to_vertex: - |
| C175 | C175_trace: - |
| C176 | C176_element_data_round_trip: - |
| C177 | C177_enough_rows_partial: -; C177_rows_checked_refuted: - |
| C178 | C178_structured_planes: SF; C178_structured_rejects: SF |
| C179 | C179_single_dof: - |
| C180 | C180_bounding_box: SF |

## Where the code disagrees with the property (status partial)
The `_refuted` theorems prove these on concrete witnesses; the `_partial` theorems say what does hold.
* C05 Admissible blocks respect maxBlockSize and the admissibility condition: The code violates two parts of the property (flag adjusted on a copy; flag computed from the parent pair); both are refuted with witnesses, the rest is proved.
* C09 Initialising an H-matrix is idempotent: The code violates the property: initialize does not clear the list of owned leaves, so the operator doubles; proved for every H-matrix. Block data stay the same.
* C13 Block compressor honours the distance cutoff: The code violates the property: the zero block is always overwritten by an unconditional second compression.
* C58 A default H-matrix bounding box is neutral for merge: The code violates the property: numeric_limits<double>::min() is positive.
* C59 createBoundingBox's reference point is the midpoint of the box: The code violates the property: reference = (max-min)/2.
* C20 Octree emptiness flags are correct on every level: The constructor marks parents one level too low (octree_impl.hpp:66-70): refuted on internal levels and for spurious leaves; occupied leaves are never reported empty.
* C60 An octree's own interaction lists cover every pair of non-empty leaves: Refuted because of C20; at-most-once holds.
* C64 Open domains on non-manifold edges of any valence: The code violates the property: the incidence counter is an unsigned char; the exact behaviour (count modulo 256) is proved.
* C65 Complement of a segment built from arbitrary excluded sets: The code violates the property for negative excluded indices.
* C68 Dense block requests with start behind end are rejected: The code violates the property.
* C69 The barycentric grid is handed out together with its complete son map: The code violates the property: the grid pointer is published before the son map is filled and is tested without the lock.
* C27 Point-in-grid test counts crossings by parity: The code violates the property: any non-zero number of crossings counts as inside; exact behaviour proved. Exact rational arithmetic.
* C70 The ray/triangle test stores the intersection point: The code violates the property: it adds the offsets to v1 instead of v0; the exact displacement is proved.
* C72 RWG dofs live on exactly two elements in every mode: The code violates the property; exact dofs and weights proved.
* C73 Piecewise constant flat local dofs on segments: The code violates the property: flatLocalDofCount is the element count of the grid.
* C74 The global-to-flat matrix carries the dof weights for every space: The code violates the property: entries are always one.
* C75 Sparse operators built with CONJUGATE: The code violates the property: CONJUGATE & (TRANSPOSE|CONJUGATE_TRANSPOSE) is non-zero; exact behaviour (the transpose) proved.
* C76 Sparse assembly of complex local operators: The code violates the property: only real parts are kept; equality proved for real local matrices.
* C77 The discrete operator cache under concurrency: The code violates the property: NULL may be returned; non-null results are right.
* C78 aliveOperators lists the live cached operators: The code violates the property: the loop condition compares with begin().
* C79 Operators with equal ids share the cached weak form: The code violates the property: the hash is taken of the id object's address.
* C80 In-place addition rejects arrays of different extents: The code violates the property: the exception is constructed but not thrown; rejection proved when bounds checks are compiled in and some index of the left array is out of range in the right one.
* C82 The Hermite interpolator may be evaluated on its whole closed range: The code violates the property: x = end reads one past the end; proved for every other point of the range.
* C84 Kernels can be interpolated for every wave number: The code violates the property: for low wave numbers fewer than two samples are taken and set-up throws; proved with error bound when the range holds at least one sampling interval. Real wave numbers.
* C53 Adjoint of discrete operators is the conjugate transpose: holds for real scalar factors (adjoint) and without sparse and complex dense operators (rmatvec); refuted otherwise
* C88 Operands of the wrong size are rejected by discrete operators: broadcasting of dense operators with a dimension 1 and zero operators are the exceptions
* C89 Operands of the wrong size are rejected by blocked discrete operators: The code violates the property: NumPy broadcasts one-entry dimension lists, and superfluous rows of 2-d arrays are ignored.
* C90 Boundary operators on incompatible spaces are rejected: The code violates the property: only the numbers of degrees of freedom are compared, so operators on different grids or with spaces of different kinds can be combined.
* C91 Caching of blocked operators is invisible: The code violates the property: __setitem__ does not drop cached weak forms, and recompute=True is not passed on to the parts of sums, multiples and products; proved when no block is assigned after a discretisation that involves it.
* C92 Strong forms and products of blocked operators: The code violates the property: the array of range maps has as many columns as the operator, so operators that are not square have no strong form and cannot be right factors; proved for square ones.
* C93 Grid functions behave as values: The code violates the property: projections(d) replaces the dual space before the coefficients are computed, so for a function given by projections another d gives wrong projections and changes the function; multiples and sums lose the dual space once coefficients were read.  Proved for programs without such reads.
* C95 Operators reject functions from other spaces: The code violates the property: operators compare only the numbers of degrees of freedom, blocked operators not even these (the array product does).
* C99 One kernel can be shared by several transformations: The code violates the property: for complex basis functions and a real kernel the tensor rule indexes the kernels by transformation and reads past the end.  No shipped operator combines these.
* C104 Flat local dof data of discontinuous spaces: The code violates the property: the data are those of global dof i, but from order 2 on flat local dofs and global dofs are numbered differently; proved for orders 0 and 1.
* C110 evaluate_on_vertices returns the function's vertex values: The code violates the property: for strictly_on_segment a later element outside the segment overwrites the value by 0; proved for spaces that are not strict.
* C111 GridFunction.integrate returns the integral: The code violates the property: it raises for vector-valued and for complex functions; proved for real scalar ones.
* C122 function_space returns the space asked for: the code violates the rest: vector spaces accept negative orders, barycentric and dual spaces ignore domains, without an error
* C126 Vector functions on the barycentric refinement are those of the grid: The code violates the rest: where three triangles meet in an edge, the coarse space has a dof and the barycentric one has none; proved for grids in which at most two triangles meet in an edge.
* C129 Building a Buffa-Christiansen space ends on every grid: The code violates the rest: on two triangles of opposite orientation both spaces read a vector at index -1, and the rotated space lacks the check of the other one and runs for ever on two pairs of triangles that share a vertex; proved for BC, on every input.
* C133 Domain indices survive export and import: the code violates the rest: export passes no domain indices, all are written as 0
* C134 Ids given to export are the ids in the file: the code violates the rest: ids given to export never reach a Gmsh file; with export_data_sets they do (C131)
* C135 Exported binary files with data can be imported: the code violates the rest: the bytes of the data are decoded as UTF-8 text, which raises for the value 1.0
* C136 Series of functions are exported completely: the code violates the rest: the default time steps are one, so two functions raise an exception, and the type of the first function decides whether imaginary parts are written
* C137 The transformation of exported data: the code violates the rest: 'abs', 'abs_squared' and 'log_abs' of functions with several components raise an exception
* C138 Several data sets are written to several files: the code violates the rest: default ids of the first data set are used for the others
* C139 References to missing nodes are rejected: the code violates the rest: node 0 and some negative ids count from the end of the list
* C143 With the strong form the right-hand side must lie in the range space: the code violates the rest: only the numbers of degrees of freedom are compared
* C144 Right-hand sides given by projections: the code violates the rest: projections onto another dual space are taken for those onto the dual space of A (grid_function.py: projections), and the solver reports success
* C146 Precomputed LU factors and sparse operators: the code violates the rest: compute_lu_factors raises for every operator, and lu for those stored sparse
* C148 Lists of right-hand sides must fit the blocked operator: the code violates the rest: with the weak form superfluous functions are ignored, with the strong form only the sum of the numbers of degrees of freedom counts
* C150 Potential operators that do not fit are rejected: the code violates the rest: of the spaces only the numbers of degrees of freedom are compared, and a * P raises
* C156 Volumes for the test for vanishing pivots of potentials: the code violates the rest: the vector of volumes has one entry per point, so for potentials with several components the rows from the number of points on read behind its end; proved for scalar potentials
* C162 No hanging nodes after local refinement: the code violates the rest: where three or more elements meet in an edge only the first neighbour is told about the new vertex, so that the others keep the whole edge; proved for surfaces
* C163 Marks of elements: the code violates the rest: get_mark indexes a set and so raises once anything has been marked; clear_marks and refine raise before anything has been marked
* C173 Entities are found by their insertion index: the loop that fills the cache assigns to the parameter, so the first call returns the entity visited last, whatever was asked for; all later calls are right
* C177 Element data with another number of rows is rejected: the number of rows is never checked: the C++ check sees the rows of an Eigen::Map, always 3; with at least three rows nothing outside the arrays is read, but the columns are taken apart wrongly when there are more

## Assumptions and limits of the proved properties
* C10: Complex scalars over Coq's reals; standard-library axioms of the reals.
* C14: Exact real arithmetic.
* C51: Exact real arithmetic.
* C15: 64-bit wrap-around not modelled (values < 2^33).
* C16: Tiling over exact reals.
* C17: Levels up to 10 (morton throws beyond).
* C18: For any emptiness oracle; 'node of the level' means non-empty node, as the code filters empty ones.
* C19: Relative to correct emptiness flags of the source's ancestors; the octree's own flags are C20/C60.
* C21: Exact reals.
* C61: Entity indices are assumed to be iterated in order 0,1,...
* C62: Exact reals, non-degenerate elements whose centroid is in the bounding cube.
* C63: Exact reals.
* C23: Vertex positions over exact reals.
* C28: Geometry over exact reals.
* C26: Open domains for edges with at most 256 incident domain elements; beyond that see C64.
* C33: Loads, stores and the mutex interleave arbitrarily; local integrals are an arbitrary function.
* C34: Relative to a space whose global2localDofs inverts getGlobalDofs (C29-C31 establish it for the spaces); reversed ranges are C68.
* C35: Local integrals are taken at the block's minimum distance. m_indexWithGlobalDofs = true.
* C37: TBB's concurrent_unordered_map find/insert taken as atomic.
* C38: TBB's concurrent_unordered_map find/insert taken as atomic.
* C24: tbb::mutex and tbb::atomic taken as sequentially consistent. barycentricGridSonPair is C69.
* C50: size_t arithmetic modelled modulo 2^64; ranges ending at or below 2^62. Splits only while is_divisible(), as TBB's range concept demands.
* C71: Exact rational arithmetic.
* C30: Flat local dofs of piecewise constants on proper segments: C73.
* C31: Other modes and valences: C72.
* C32: Weighted spaces: C74.
* C39: Concurrency: C77; aliveOperators: C78; equal ids at different addresses: C79.
* C40: Operators constructed with CONJUGATE: C75. Exact arithmetic; uninitialised or NaN content of y modelled by a poison value.
* C41: The overload taking Eigen::Ref does not check sizes in release builds; wrong sizes there are outside the contract.
* C42: Local matrices are an arbitrary function of the element. Complex result types: C76.
* C43: Sizes are 64-bit unsigned; the product of the extents is assumed to fit in them.
* C44: Exact arithmetic. Different extents: C80.
* C81: A client's memory is assumed to outlive the arrays on it.
* C49: Exact real arithmetic, real ValueType. The closed end of the range: C82.
* C83: Exact real arithmetic, three-dimensional world.
* C45: Elements with 3 or 4 distinct vertices. Symmetry up to the order of the two shared vertices.
* C47: Exact real arithmetic. Quadrilaterals: the code implements coincident pairs only and throws otherwise, which is what is proved.
* C85: Exact real arithmetic. Pairs on finitely many hyperplanes (null sets) excluded from the covering.
* C86: Exact real arithmetic; triangles.
* C46: std::sort is called with <= as comparator: modelled as libstdc++ behaves (insertion for at most 16 entries, undefined for more entries with equal distances). Exact real distances and infinity, no NaN.
* C87: Exact real arithmetic; int overflow not modelled.
* C48: Integrators are arbitrary functions of descriptor, shapesets and element pair; integrating for one local dof is assumed to give that column or row of the whole local matrix.
* C52: by induction over expression trees; the sparse solver is any function with the transposition laws of a generalised inverse
* C54: by induction over expressions of blocked operators; wrong operand sizes: C89
* C56: heap of operators with caches; blocked operators: separate property
* C57: transposes of zero operators and adjoints of complex multiples excluded (C52, C53); other mismatches of spaces: C90
* C55: for functions of any program without the reads refuted in C93
* C94: weak forms by C56, C57 and C91
* C96: invariant over histories
* C97: exact arithmetic
* C98: exact arithmetic
* C100: kernel values arbitrary; exact arithmetic
* C101: triangles; the code refuses quadrilaterals
* C102: triangles
* C103: order 1 uses the separate linear space, also modelled
* C105: Dune's reference functions, Jacobian and integration element are modelled by their documented values; exact arithmetic
* C106: exact arithmetic
* C107: exact arithmetic
* C108: exact arithmetic; Dune's pseudo-inverse modelled by its formula
* C109: Dune's Pk2D and P1 bases are modelled by their documented formulas; exact arithmetic
* C112: exact real arithmetic; interpolated kernels are not covered here (C49, C82-C84); compiled with NDEBUG
* C113: exact arithmetic; the surface enters through arbitrary quadrature points, normals, weights and density values
* C114: exact arithmetic
* C115: exact arithmetic
* C116: for rules with at least one point; transformations, kernels and integrals are parameters that read only the data they declare
* C117: the concurrent map's find and insert are atomic steps
* C118: for kernels that ask only for positions at the evaluation point (all kernels of the library used in potentials)
* C119: exact arithmetic; the assembly of the building blocks is assumed to give Galerkin matrices (C36, C37, C97-C100, C116); inclusion in the super space is C103, C104 for scalar spaces
* C120: exact arithmetic; the building blocks are assumed to give Galerkin matrices
* C121: exact arithmetic; the building blocks are assumed to give Galerkin matrices
* C123: grids compared by identity, barycentric_grid() made once per grid, no refinement between the calls
* C124: excludes the private attribute _hdiv_space of rotated Buffa-Christiansen spaces, whose key is None so that any two compare equal
* C125: exact real arithmetic; Dune's geometry map and P1 basis assumed
* C127: exact arithmetic
* C128: exact real arithmetic; Dune's geometry map, Jacobian and RT basis assumed; the vertex numbering of the refinement is the one C23 proves
* C130: printing and parsing of floating point numbers and the order in which argsort returns equal values are parameters; building the Dune grid from the arrays is not modelled; Python 3, little endian
* C131: for functions of one type and one number of components, a time for each, no transformation; the rest is C133-C138
* C132: printing and parsing of floating point numbers is a parameter; binary files without data (C135)
* C141: SciPy's iterations are parameters: code 0 means that the system is solved up to the tolerance
* C151: exact arithmetic; kernels, shape functions and geometry are parameters that use only the data they declare
* C152: exact arithmetic; the choice of rules succeeds (C153)
* C153: exact real arithmetic
* C157: exact real arithmetic; edges of the Dune grid identified with pairs of vertices
* C160: exact real arithmetic
* C161: exact real arithmetic
* C165: dof weights are real, as in every space of the library
* C166: exact real arithmetic
* C167: exact real arithmetic
* C168: exact real arithmetic
* C169: exact real arithmetic
* C170: int overflow of node numbers (n > 14) not modelled
* C171: exact real arithmetic
* C172: views never change after construction
* C174: np.int needs an old numpy
* C175: the boundary grid is built from the vertices and cells of the boundary mesh; dolfin's maps are parameters
* C176: both arrays have a column; values fit double and intc; Dune's numbering is any pair of permutations and every inserted vertex is an entity
* C178: exact reals; Dune's numbering of the intermediate grid is arbitrary
* C180: exact reals; rounding of the mean could violate the assertions by an ulp

## Seeded errors
`seeded/LOG.jsonl` lists every wrong program tried: the definition edited, the edit, the claim it breaks, the theorems that failed and those that were tightened after an edit had survived.
