@@ C01 C01_cluster_ranges_tile HMatTreeProps
Closed under the global context
@@ C02 C02_dof_permutation_bijective HMatTreeProps
Closed under the global context
@@ C03 C03_cluster_sizes_and_depth HMatTreeProps
Closed under the global context
@@ C04 C04_block_leaves_tile_matrix HMatTreeProps
Closed under the global context
@@ C05 C05_admissibility_flags_partial HMatTreeProps
Closed under the global context
@@ C05 C05_max_block_size_refuted HMatTreeProps
Closed under the global context
@@ C05 C05_admissible_pair_refined_refuted HMatTreeProps
Closed under the global context
@@ C06 C06_matvec_is_dense_product HMatApplyProps
Closed under the global context
@@ C06 C06_represented_matrix_exists HMatApplyProps
Closed under the global context
@@ C07 C07_distributed_matvec HMatApplyProps
Closed under the global context
@@ C08 C08_vector_permutation_invertible HMatApplyProps
Closed under the global context
@@ C09 C09_reinitialise_block_data_partial HMatApplyProps
Closed under the global context
@@ C09 C09_reinitialise_doubles_operator_refuted HMatApplyProps
Closed under the global context
@@ C10 C10_frobenius_norm HMatApplyProps
Axioms:
ClassicalDedekindReals.sig_not_dec : forall P : Prop, {~ ~ P} + {~ P}
ClassicalDedekindReals.sig_forall_dec
  : forall P : nat -> Prop,
    (forall n : nat, {P n} + {~ P n}) ->
    {n : nat | ~ P n} + {forall n : nat, P n}
FunctionalExtensionality.functional_extensionality_dep
  : forall (A : Type) (B : A -> Type) (f g : forall x : A, B x),
    (forall x : A, f x = g x) -> f = g
@@ C13 C13_near_blocks_compressed_partial HMatApplyProps
Closed under the global context
@@ C13 C13_cutoff_has_no_effect_refuted HMatApplyProps
Closed under the global context
@@ C11 C11_aca_terminates_with_bounded_rank AcaProps
Closed under the global context
@@ C12 C12_aca_interpolates AcaProps
Closed under the global context
@@ C12 C12_full_rank_is_exact AcaProps
Closed under the global context
@@ C14 C14_merge_is_smallest_box BoxProps
Axioms:
ClassicalDedekindReals.sig_not_dec : forall P : Prop, {~ ~ P} + {~ P}
ClassicalDedekindReals.sig_forall_dec
  : forall P : nat -> Prop,
    (forall n : nat, {P n} + {~ P n}) ->
    {n : nat | ~ P n} + {forall n : nat, P n}
FunctionalExtensionality.functional_extensionality_dep
  : forall (A : Type) (B : A -> Type) (f g : forall x : A, B x),
    (forall x : A, f x = g x) -> f = g
@@ C14 C14_distance_is_set_distance BoxProps
Axioms:
ClassicalDedekindReals.sig_not_dec : forall P : Prop, {~ ~ P} + {~ P}
ClassicalDedekindReals.sig_forall_dec
  : forall P : nat -> Prop,
    (forall n : nat, {P n} + {~ P n}) ->
    {n : nat | ~ P n} + {forall n : nat, P n}
FunctionalExtensionality.functional_extensionality_dep
  : forall (A : Type) (B : A -> Type) (f g : forall x : A, B x),
    (forall x : A, f x = g x) -> f = g
@@ C14 C14_divide_tiles BoxProps
Axioms:
ClassicalDedekindReals.sig_not_dec : forall P : Prop, {~ ~ P} + {~ P}
ClassicalDedekindReals.sig_forall_dec
  : forall P : nat -> Prop,
    (forall n : nat, {P n} + {~ P n}) ->
    {n : nat | ~ P n} + {forall n : nat, P n}
FunctionalExtensionality.functional_extensionality_dep
  : forall (A : Type) (B : A -> Type) (f g : forall x : A, B x),
    (forall x : A, f x = g x) -> f = g
@@ C14 C14_diameter_and_longest_direction BoxProps
Axioms:
ClassicalDedekindReals.sig_not_dec : forall P : Prop, {~ ~ P} + {~ P}
ClassicalDedekindReals.sig_forall_dec
  : forall P : nat -> Prop,
    (forall n : nat, {P n} + {~ P n}) ->
    {n : nat | ~ P n} + {forall n : nat, P n}
FunctionalExtensionality.functional_extensionality_dep
  : forall (A : Type) (B : A -> Type) (f g : forall x : A, B x),
    (forall x : A, f x = g x) -> f = g
@@ C14 C14_triangle_box BoxProps
Axioms:
ClassicalDedekindReals.sig_not_dec : forall P : Prop, {~ ~ P} + {~ P}
ClassicalDedekindReals.sig_forall_dec
  : forall P : nat -> Prop,
    (forall n : nat, {P n} + {~ P n}) ->
    {n : nat | ~ P n} + {forall n : nat, P n}
FunctionalExtensionality.functional_extensionality_dep
  : forall (A : Type) (B : A -> Type) (f g : forall x : A, B x),
    (forall x : A, f x = g x) -> f = g
@@ C14 C14_strong_admissibility_separates BoxProps
Axioms:
ClassicalDedekindReals.sig_not_dec : forall P : Prop, {~ ~ P} + {~ P}
ClassicalDedekindReals.sig_forall_dec
  : forall P : nat -> Prop,
    (forall n : nat, {P n} + {~ P n}) ->
    {n : nat | ~ P n} + {forall n : nat, P n}
FunctionalExtensionality.functional_extensionality_dep
  : forall (A : Type) (B : A -> Type) (f g : forall x : A, B x),
    (forall x : A, f x = g x) -> f = g
@@ C14 C14_corners BoxProps
Axioms:
ClassicalDedekindReals.sig_forall_dec
  : forall P : nat -> Prop,
    (forall n : nat, {P n} + {~ P n}) ->
    {n : nat | ~ P n} + {forall n : nat, P n}
@@ C51 C51_dof_bounding_box BoxProps
Axioms:
ClassicalDedekindReals.sig_forall_dec
  : forall P : nat -> Prop,
    (forall n : nat, {P n} + {~ P n}) ->
    {n : nat | ~ P n} + {forall n : nat, P n}
FunctionalExtensionality.functional_extensionality_dep
  : forall (A : Type) (B : A -> Type) (f g : forall x : A, B x),
    (forall x : A, f x = g x) -> f = g
@@ C51 C51_extend_is_smallest BoxProps
Axioms:
ClassicalDedekindReals.sig_forall_dec
  : forall P : nat -> Prop,
    (forall n : nat, {P n} + {~ P n}) ->
    {n : nat | ~ P n} + {forall n : nat, P n}
FunctionalExtensionality.functional_extensionality_dep
  : forall (A : Type) (B : A -> Type) (f g : forall x : A, B x),
    (forall x : A, f x = g x) -> f = g
@@ C58 C58_default_box_neutral_partial BoxProps
Axioms:
ClassicalDedekindReals.sig_not_dec : forall P : Prop, {~ ~ P} + {~ P}
ClassicalDedekindReals.sig_forall_dec
  : forall P : nat -> Prop,
    (forall n : nat, {P n} + {~ P n}) ->
    {n : nat | ~ P n} + {forall n : nat, P n}
FunctionalExtensionality.functional_extensionality_dep
  : forall (A : Type) (B : A -> Type) (f g : forall x : A, B x),
    (forall x : A, f x = g x) -> f = g
@@ C58 C58_default_box_not_neutral_refuted BoxProps
Axioms:
ClassicalDedekindReals.sig_not_dec : forall P : Prop, {~ ~ P} + {~ P}
ClassicalDedekindReals.sig_forall_dec
  : forall P : nat -> Prop,
    (forall n : nat, {P n} + {~ P n}) ->
    {n : nat | ~ P n} + {forall n : nat, P n}
FunctionalExtensionality.functional_extensionality_dep
  : forall (A : Type) (B : A -> Type) (f g : forall x : A, B x),
    (forall x : A, f x = g x) -> f = g
@@ C59 C59_created_box_reference_partial BoxProps
Axioms:
ClassicalDedekindReals.sig_forall_dec
  : forall P : nat -> Prop,
    (forall n : nat, {P n} + {~ P n}) ->
    {n : nat | ~ P n} + {forall n : nat, P n}
FunctionalExtensionality.functional_extensionality_dep
  : forall (A : Type) (B : A -> Type) (f g : forall x : A, B x),
    (forall x : A, f x = g x) -> f = g
@@ C59 C59_created_box_reference_refuted BoxProps
Axioms:
ClassicalDedekindReals.sig_forall_dec
  : forall P : nat -> Prop,
    (forall n : nat, {P n} + {~ P n}) ->
    {n : nat | ~ P n} + {forall n : nat, P n}
FunctionalExtensionality.functional_extensionality_dep
  : forall (A : Type) (B : A -> Type) (f g : forall x : A, B x),
    (forall x : A, f x = g x) -> f = g
@@ C15 C15_deMorton_morton FmmProps
Closed under the global context
@@ C15 C15_morton_deMorton FmmProps
Closed under the global context
@@ C15 C15_morton_rejects FmmProps
Closed under the global context
@@ C16 C16_children_of_parent FmmProps
Closed under the global context
@@ C16 C16_parent_coordinates FmmProps
Closed under the global context
@@ C16 C16_children_tile_parent FmmProps
Axioms:
ClassicalDedekindReals.sig_forall_dec
  : forall P : nat -> Prop,
    (forall n : nat, {P n} + {~ P n}) ->
    {n : nat | ~ P n} + {forall n : nat, P n}
FunctionalExtensionality.functional_extensionality_dep
  : forall (A : Type) (B : A -> Type) (f g : forall x : A, B x),
    (forall x : A, f x = g x) -> f = g
@@ C17 C17_neighbors_exact FmmProps
Closed under the global context
@@ C17 C17_neighbors_symmetric FmmProps
Closed under the global context
@@ C18 C18_interaction_list_exact FmmProps
Closed under the global context
@@ C19 C19_near_far_partition FmmProps
Closed under the global context
@@ C20 C20_emptiness_partial FmmProps
Closed under the global context
@@ C20 C20_emptiness_refuted FmmProps
Closed under the global context
@@ C21 C21_leaf_contains_point FmmProps
Axioms:
ClassicalDedekindReals.sig_forall_dec
  : forall P : nat -> Prop,
    (forall n : nat, {P n} + {~ P n}) ->
    {n : nat | ~ P n} + {forall n : nat, P n}
FunctionalExtensionality.functional_extensionality_dep
  : forall (A : Type) (B : A -> Type) (f g : forall x : A, B x),
    (forall x : A, f x = g x) -> f = g
@@ C60 C60_own_flags_partial FmmProps
Closed under the global context
@@ C60 C60_own_flags_refuted FmmProps
Closed under the global context
@@ C61 C61_leaf_entities_partition FmmProps
Closed under the global context
@@ C62 C62_extended_cube_contains_element FmmProps
Axioms:
ClassicalDedekindReals.sig_not_dec : forall P : Prop, {~ ~ P} + {~ P}
ClassicalDedekindReals.sig_forall_dec
  : forall P : nat -> Prop,
    (forall n : nat, {P n} + {~ P n}) ->
    {n : nat | ~ P n} + {forall n : nat, P n}
FunctionalExtensionality.functional_extensionality_dep
  : forall (A : Type) (B : A -> Type) (f g : forall x : A, B x),
    (forall x : A, f x = g x) -> f = g
@@ C63 C63_element_diameters FmmProps
Axioms:
ClassicalDedekindReals.sig_not_dec : forall P : Prop, {~ ~ P} + {~ P}
ClassicalDedekindReals.sig_forall_dec
  : forall P : nat -> Prop,
    (forall n : nat, {P n} + {~ P n}) ->
    {n : nat | ~ P n} + {forall n : nat, P n}
FunctionalExtensionality.functional_extensionality_dep
  : forall (A : Type) (B : A -> Type) (f g : forall x : A, B x),
    (forall x : A, f x = g x) -> f = g
@@ C22 C22_edge_numbering GridProps
Closed under the global context
@@ C22 C22_adjacency_lists GridProps
Closed under the global context
@@ C66 C66_ids_unique GridProps
Closed under the global context
@@ C23 C23_sons GridProps
Closed under the global context
@@ C23 C23_vertices GridProps
Closed under the global context
@@ C23 C23_sons_orientation_area GridProps
Axioms:
ClassicalDedekindReals.sig_forall_dec
  : forall P : nat -> Prop,
    (forall n : nat, {P n} + {~ P n}) ->
    {n : nat | ~ P n} + {forall n : nat, P n}
FunctionalExtensionality.functional_extensionality_dep
  : forall (A : Type) (B : A -> Type) (f g : forall x : A, B x),
    (forall x : A, f x = g x) -> f = g
@@ C23 C23_son_map GridProps
Closed under the global context
@@ C23 C23_son_domains GridProps
Closed under the global context
@@ C67 C67_domain_indices_permuted GridProps
Closed under the global context
@@ C28 C28_vertices GridProps
Closed under the global context
@@ C28 C28_triangles GridProps
Closed under the global context
@@ C28 C28_cubes GridProps
Closed under the global context
@@ C28 C28_consistent_orientation GridProps
Closed under the global context
@@ C28 C28_positive_area GridProps
Axioms:
ClassicalDedekindReals.sig_forall_dec
  : forall P : nat -> Prop,
    (forall n : nat, {P n} + {~ P n}) ->
    {n : nat | ~ P n} + {forall n : nat, P n}
FunctionalExtensionality.functional_extensionality_dep
  : forall (A : Type) (B : A -> Type) (f g : forall x : A, B x),
    (forall x : A, f x = g x) -> f = g
@@ C28 C28_cover GridProps
Axioms:
ClassicalDedekindReals.sig_forall_dec
  : forall P : nat -> Prop,
    (forall n : nat, {P n} + {~ P n}) ->
    {n : nat | ~ P n} + {forall n : nat, P n}
FunctionalExtensionality.functional_extensionality_dep
  : forall (A : Type) (B : A -> Type) (f g : forall x : A, B x),
    (forall x : A, f x = g x) -> f = g
@@ C25 C25_set_algebra SegProps
Closed under the global context
@@ C25 C25_marks SegProps
Closed under the global context
@@ C26 C26_closed_domain SegProps
Closed under the global context
@@ C26 C26_open_domain SegProps
Closed under the global context
@@ C64 C64_high_valence_partial SegProps
Closed under the global context
@@ C64 C64_high_valence_refuted SegProps
Closed under the global context
@@ C65 C65_complement_partial SegProps
Closed under the global context
@@ C65 C65_complement_refuted SegProps
Closed under the global context
@@ C33 C33_dense_assembly AsmProps
Closed under the global context
@@ C33 C33_dense_potential AsmProps
Closed under the global context
@@ C34 C34_dense_block AsmProps
Closed under the global context
@@ C68 C68_reversed_range_partial AsmProps
Closed under the global context
@@ C68 C68_reversed_range_refuted AsmProps
Closed under the global context
@@ C35 C35_matrix_block AsmProps
Closed under the global context
@@ C35 C35_sparse_terms_throw AsmProps
Closed under the global context
@@ C36 C36_potential_block AsmProps
Closed under the global context
@@ C37 C37_dof_lists AsmProps
Closed under the global context
@@ C37 C37_cache AsmProps
Closed under the global context
@@ C38 C38_component_lists AsmProps
Closed under the global context
@@ C38 C38_cache AsmProps
Closed under the global context
@@ C24 C24_lazy_get LazyProps
Closed under the global context
@@ C24 C24_lazy_once LazyProps
Closed under the global context
@@ C69 C69_barycentric_pair_partial LazyProps
Closed under the global context
@@ C69 C69_barycentric_pair_refuted LazyProps
Closed under the global context
@@ C50 C50_scattered_range RangeProps
Closed under the global context
@@ C50 C50_grain RangeProps
Closed under the global context
@@ C27 C27_inside_partial InsideProps
Closed under the global context
@@ C27 C27_parity_refuted InsideProps
Closed under the global context
@@ C70 C70_intersection_point_partial InsideProps
Closed under the global context
@@ C70 C70_intersection_point_refuted InsideProps
Closed under the global context
@@ C71 C71_ray_triangle InsideProps
Closed under the global context
@@ C29 C29_p1_dofs SpaceProps
Closed under the global context
@@ C29 C29_space_meets_assembly SpaceProps
Closed under the global context
@@ C30 C30_discontinuous_p1_dofs SpaceProps
Closed under the global context
@@ C30 C30_piecewise_constant_dofs SpaceProps
Closed under the global context
@@ C31 C31_rwg_dofs SpaceProps
Closed under the global context
@@ C32 C32_global_to_flat_matrix SpaceProps
Closed under the global context
@@ C72 C72_rwg_any_valence_partial SpaceProps
Closed under the global context
@@ C72 C72_rwg_two_elements_refuted SpaceProps
Closed under the global context
@@ C72 C72_rwg_element_mode_refuted SpaceProps
Closed under the global context
@@ C73 C73_p0_segment_flat_partial SpaceProps
Closed under the global context
@@ C73 C73_p0_segment_flat_refuted SpaceProps
Closed under the global context
@@ C74 C74_weighted_mapping_partial SpaceProps
Closed under the global context
@@ C74 C74_weighted_mapping_refuted SpaceProps
Closed under the global context
@@ C39 C39_cache_sequential DiscCacheProps
Closed under the global context
@@ C40 C40_sparse_real OperProps
Closed under the global context
@@ C40 C40_sparse_complex OperProps
Closed under the global context
@@ C41 C41_dense_apply OperProps
Closed under the global context
@@ C41 C41_default_asMatrix OperProps
Closed under the global context
@@ C41 C41_apply_columns OperProps
Closed under the global context
@@ C41 C41_apply_fresh OperProps
Closed under the global context
@@ C41 C41_hmat_apply OperProps
Closed under the global context
@@ C42 C42_local_operators LocalOpProps
Closed under the global context
@@ C75 C75_conjugate_mode_partial OperProps
Closed under the global context
@@ C75 C75_conjugate_mode_refuted OperProps
Closed under the global context
@@ C76 C76_complex_sparse_partial LocalOpProps
Closed under the global context
@@ C76 C76_complex_sparse_refuted LocalOpProps
Closed under the global context
@@ C77 C77_cache_threads_partial DiscCacheProps
Closed under the global context
@@ C77 C77_cache_threads_refuted DiscCacheProps
Closed under the global context
@@ C78 C78_alive_operators_partial DiscCacheProps
Closed under the global context
@@ C78 C78_alive_operators_refuted DiscCacheProps
Closed under the global context
@@ C79 C79_equal_ids_partial DiscCacheProps
Closed under the global context
@@ C79 C79_equal_ids_refuted DiscCacheProps
Closed under the global context
@@ C43 array_addressing ArrayProps
Closed under the global context
@@ C43 array_assignment ArrayProps
Closed under the global context
@@ C43 array_checked_access ArrayProps
Closed under the global context
@@ C43 array_slice_aliases ArrayProps
Closed under the global context
@@ C44 array_plus_equal_extents ArrayProps
Closed under the global context
@@ C44 array_times_scalar ArrayProps
Closed under the global context
@@ C80 array_plus_other_extents_partial ArrayProps
Closed under the global context
@@ C80 array_plus_other_extents_refuted ArrayProps
Closed under the global context
@@ C81 array_storage_safe ArrayProps
Closed under the global context
@@ C49 hermite_initialize HermiteProps
Axioms:
ClassicalDedekindReals.sig_forall_dec
  : forall P : nat -> Prop,
    (forall n : nat, {P n} + {~ P n}) ->
    {n : nat | ~ P n} + {forall n : nat, P n}
FunctionalExtensionality.functional_extensionality_dep
  : forall (A : Type) (B : A -> Type) (f g : forall x : A, B x),
    (forall x : A, f x = g x) -> f = g
@@ C49 hermite_in_bounds HermiteProps
Axioms:
ClassicalDedekindReals.sig_forall_dec
  : forall P : nat -> Prop,
    (forall n : nat, {P n} + {~ P n}) ->
    {n : nat | ~ P n} + {forall n : nat, P n}
FunctionalExtensionality.functional_extensionality_dep
  : forall (A : Type) (B : A -> Type) (f g : forall x : A, B x),
    (forall x : A, f x = g x) -> f = g
@@ C49 hermite_nodes HermiteProps
Axioms:
ClassicalDedekindReals.sig_forall_dec
  : forall P : nat -> Prop,
    (forall n : nat, {P n} + {~ P n}) ->
    {n : nat | ~ P n} + {forall n : nat, P n}
FunctionalExtensionality.functional_extensionality_dep
  : forall (A : Type) (B : A -> Type) (f g : forall x : A, B x),
    (forall x : A, f x = g x) -> f = g
@@ C49 hermite_error HermiteProps
Axioms:
ClassicalDedekindReals.sig_not_dec : forall P : Prop, {~ ~ P} + {~ P}
ClassicalDedekindReals.sig_forall_dec
  : forall P : nat -> Prop,
    (forall n : nat, {P n} + {~ P n}) ->
    {n : nat | ~ P n} + {forall n : nat, P n}
FunctionalExtensionality.functional_extensionality_dep
  : forall (A : Type) (B : A -> Type) (f g : forall x : A, B x),
    (forall x : A, f x = g x) -> f = g
Classical_Prop.classic : forall P : Prop, P \/ ~ P
@@ C82 hermite_range_end_partial HermiteProps
Axioms:
ClassicalDedekindReals.sig_forall_dec
  : forall P : nat -> Prop,
    (forall n : nat, {P n} + {~ P n}) ->
    {n : nat | ~ P n} + {forall n : nat, P n}
FunctionalExtensionality.functional_extensionality_dep
  : forall (A : Type) (B : A -> Type) (f g : forall x : A, B x),
    (forall x : A, f x = g x) -> f = g
@@ C82 hermite_range_end_refuted HermiteProps
Axioms:
ClassicalDedekindReals.sig_forall_dec
  : forall P : nat -> Prop,
    (forall n : nat, {P n} + {~ P n}) ->
    {n : nat | ~ P n} + {forall n : nat, P n}
FunctionalExtensionality.functional_extensionality_dep
  : forall (A : Type) (B : A -> Type) (f g : forall x : A, B x),
    (forall x : A, f x = g x) -> f = g
@@ C83 max_distance_bounds HermiteProps
Axioms:
ClassicalDedekindReals.sig_not_dec : forall P : Prop, {~ ~ P} + {~ P}
ClassicalDedekindReals.sig_forall_dec
  : forall P : nat -> Prop,
    (forall n : nat, {P n} + {~ P n}) ->
    {n : nat | ~ P n} + {forall n : nat, P n}
FunctionalExtensionality.functional_extensionality_dep
  : forall (A : Type) (B : A -> Type) (f g : forall x : A, B x),
    (forall x : A, f x = g x) -> f = g
@@ C84 kernel_interpolation_partial HermiteProps
Axioms:
ClassicalDedekindReals.sig_not_dec : forall P : Prop, {~ ~ P} + {~ P}
ClassicalDedekindReals.sig_forall_dec
  : forall P : nat -> Prop,
    (forall n : nat, {P n} + {~ P n}) ->
    {n : nat | ~ P n} + {forall n : nat, P n}
FunctionalExtensionality.functional_extensionality_dep
  : forall (A : Type) (B : A -> Type) (f g : forall x : A, B x),
    (forall x : A, f x = g x) -> f = g
Classical_Prop.classic : forall P : Prop, P \/ ~ P
@@ C84 kernel_interpolation_refuted HermiteProps
Axioms:
ClassicalDedekindReals.sig_not_dec : forall P : Prop, {~ ~ P} + {~ P}
ClassicalDedekindReals.sig_forall_dec
  : forall P : nat -> Prop,
    (forall n : nat, {P n} + {~ P n}) ->
    {n : nat | ~ P n} + {forall n : nat, P n}
FunctionalExtensionality.functional_extensionality_dep
  : forall (A : Type) (B : A -> Type) (f g : forall x : A, B x),
    (forall x : A, f x = g x) -> f = g
@@ C45 topology_classification QuadProps
Closed under the global context
@@ C45 topology_symmetric QuadProps
Closed under the global context
@@ C47 singular_rule_triangles QuadProps
Axioms:
ClassicalDedekindReals.sig_forall_dec
  : forall P : nat -> Prop,
    (forall n : nat, {P n} + {~ P n}) ->
    {n : nat | ~ P n} + {forall n : nat, P n}
FunctionalExtensionality.functional_extensionality_dep
  : forall (A : Type) (B : A -> Type) (f g : forall x : A, B x),
    (forall x : A, f x = g x) -> f = g
@@ C47 singular_rule_quadrangle QuadProps
Axioms:
ClassicalDedekindReals.sig_forall_dec
  : forall P : nat -> Prop,
    (forall n : nat, {P n} + {~ P n}) ->
    {n : nat | ~ P n} + {forall n : nat, P n}
@@ C47 singular_rule_rejects QuadProps
Axioms:
ClassicalDedekindReals.sig_forall_dec
  : forall P : nat -> Prop,
    (forall n : nat, {P n} + {~ P n}) ->
    {n : nat | ~ P n} + {forall n : nat, P n}
@@ C85 duffy_jacobian QuadProps
Axioms:
ClassicalDedekindReals.sig_forall_dec
  : forall P : nat -> Prop,
    (forall n : nat, {P n} + {~ P n}) ->
    {n : nat | ~ P n} + {forall n : nat, P n}
FunctionalExtensionality.functional_extensionality_dep
  : forall (A : Type) (B : A -> Type) (f g : forall x : A, B x),
    (forall x : A, f x = g x) -> f = g
@@ C85 duffy_partition QuadProps
Axioms:
ClassicalDedekindReals.sig_forall_dec
  : forall P : nat -> Prop,
    (forall n : nat, {P n} + {~ P n}) ->
    {n : nat | ~ P n} + {forall n : nat, P n}
FunctionalExtensionality.functional_extensionality_dep
  : forall (A : Type) (B : A -> Type) (f g : forall x : A, B x),
    (forall x : A, f x = g x) -> f = g
@@ C85 duffy_total_weight QuadProps
Axioms:
ClassicalDedekindReals.sig_forall_dec
  : forall P : nat -> Prop,
    (forall n : nat, {P n} + {~ P n}) ->
    {n : nat | ~ P n} + {forall n : nat, P n}
FunctionalExtensionality.functional_extensionality_dep
  : forall (A : Type) (B : A -> Type) (f g : forall x : A, B x),
    (forall x : A, f x = g x) -> f = g
@@ C86 kernel_never_singular QuadProps
Axioms:
ClassicalDedekindReals.sig_forall_dec
  : forall P : nat -> Prop,
    (forall n : nat, {P n} + {~ P n}) ->
    {n : nat | ~ P n} + {forall n : nat, P n}
FunctionalExtensionality.functional_extensionality_dep
  : forall (A : Type) (B : A -> Type) (f g : forall x : A, B x),
    (forall x : A, f x = g x) -> f = g
@@ C46 order_lookup AccProps
Axioms:
ClassicalDedekindReals.sig_forall_dec
  : forall P : nat -> Prop,
    (forall n : nat, {P n} + {~ P n}) ->
    {n : nat | ~ P n} + {forall n : nat, P n}
FunctionalExtensionality.functional_extensionality_dep
  : forall (A : Type) (B : A -> Type) (f g : forall x : A, B x),
    (forall x : A, f x = g x) -> f = g
@@ C46 order_lists_checked AccProps
Axioms:
ClassicalDedekindReals.sig_forall_dec
  : forall P : nat -> Prop,
    (forall n : nat, {P n} + {~ P n}) ->
    {n : nat | ~ P n} + {forall n : nat, P n}
FunctionalExtensionality.functional_extensionality_dep
  : forall (A : Type) (B : A -> Type) (f g : forall x : A, B x),
    (forall x : A, f x = g x) -> f = g
@@ C46 order_ranges AccProps
Axioms:
ClassicalDedekindReals.sig_forall_dec
  : forall P : nat -> Prop,
    (forall n : nat, {P n} + {~ P n}) ->
    {n : nat | ~ P n} + {forall n : nat, P n}
FunctionalExtensionality.functional_extensionality_dep
  : forall (A : Type) (B : A -> Type) (f g : forall x : A, B x),
    (forall x : A, f x = g x) -> f = g
@@ C87 regular_orders AccProps
Axioms:
ClassicalDedekindReals.sig_not_dec : forall P : Prop, {~ ~ P} + {~ P}
ClassicalDedekindReals.sig_forall_dec
  : forall P : nat -> Prop,
    (forall n : nat, {P n} + {~ P n}) ->
    {n : nat | ~ P n} + {forall n : nat, P n}
FunctionalExtensionality.functional_extensionality_dep
  : forall (A : Type) (B : A -> Type) (f g : forall x : A, B x),
    (forall x : A, f x = g x) -> f = g
@@ C87 singular_orders AccProps
Axioms:
ClassicalDedekindReals.sig_not_dec : forall P : Prop, {~ ~ P} + {~ P}
ClassicalDedekindReals.sig_forall_dec
  : forall P : nat -> Prop,
    (forall n : nat, {P n} + {~ P n}) ->
    {n : nat | ~ P n} + {forall n : nat, P n}
FunctionalExtensionality.functional_extensionality_dep
  : forall (A : Type) (B : A -> Type) (f g : forall x : A, B x),
    (forall x : A, f x = g x) -> f = g
@@ C87 orders_symmetric AccProps
Axioms:
ClassicalDedekindReals.sig_not_dec : forall P : Prop, {~ ~ P} + {~ P}
ClassicalDedekindReals.sig_forall_dec
  : forall P : nat -> Prop,
    (forall n : nat, {P n} + {~ P n}) ->
    {n : nat | ~ P n} + {forall n : nat, P n}
FunctionalExtensionality.functional_extensionality_dep
  : forall (A : Type) (B : A -> Type) (f g : forall x : A, B x),
    (forall x : A, f x = g x) -> f = g
@@ C87 element_measures AccProps
Axioms:
ClassicalDedekindReals.sig_not_dec : forall P : Prop, {~ ~ P} + {~ P}
ClassicalDedekindReals.sig_forall_dec
  : forall P : nat -> Prop,
    (forall n : nat, {P n} + {~ P n}) ->
    {n : nat | ~ P n} + {forall n : nat, P n}
FunctionalExtensionality.functional_extensionality_dep
  : forall (A : Type) (B : A -> Type) (f g : forall x : A, B x),
    (forall x : A, f x = g x) -> f = g
@@ C87 regular_pairs AccProps
Axioms:
ClassicalDedekindReals.sig_not_dec : forall P : Prop, {~ ~ P} + {~ P}
ClassicalDedekindReals.sig_forall_dec
  : forall P : nat -> Prop,
    (forall n : nat, {P n} + {~ P n}) ->
    {n : nat | ~ P n} + {forall n : nat, P n}
FunctionalExtensionality.functional_extensionality_dep
  : forall (A : Type) (B : A -> Type) (f g : forall x : A, B x),
    (forall x : A, f x = g x) -> f = g
@@ C48 cache_transparent CacheProofs
Closed under the global context
@@ C48 cache_builds LocalCacheProps
Axioms:
ClassicalDedekindReals.sig_not_dec : forall P : Prop, {~ ~ P} + {~ P}
ClassicalDedekindReals.sig_forall_dec
  : forall P : nat -> Prop,
    (forall n : nat, {P n} + {~ P n}) ->
    {n : nat | ~ P n} + {forall n : nat, P n}
FunctionalExtensionality.functional_extensionality_dep
  : forall (A : Type) (B : A -> Type) (f g : forall x : A, B x),
    (forall x : A, f x = g x) -> f = g
@@ C48 local_matrices LocalCacheProps2
Axioms:
ClassicalDedekindReals.sig_not_dec : forall P : Prop, {~ ~ P} + {~ P}
ClassicalDedekindReals.sig_forall_dec
  : forall P : nat -> Prop,
    (forall n : nat, {P n} + {~ P n}) ->
    {n : nat | ~ P n} + {forall n : nat, P n}
FunctionalExtensionality.functional_extensionality_dep
  : forall (A : Type) (B : A -> Type) (f g : forall x : A, B x),
    (forall x : A, f x = g x) -> f = g
@@ C48 cache_complete LocalCacheProps2
Axioms:
ClassicalDedekindReals.sig_not_dec : forall P : Prop, {~ ~ P} + {~ P}
ClassicalDedekindReals.sig_forall_dec
  : forall P : nat -> Prop,
    (forall n : nat, {P n} + {~ P n}) ->
    {n : nat | ~ P n} + {forall n : nat, P n}
FunctionalExtensionality.functional_extensionality_dep
  : forall (A : Type) (B : A -> Type) (f g : forall x : A, B x),
    (forall x : A, f x = g x) -> f = g
@@ C52 C52_op_algebra PyOpProps
Closed under the global context
@@ C52 C52_zero_transpose PyOpProps
Closed under the global context
@@ C53 C53_adjoint_partial PyOpProps
Closed under the global context
@@ C53 C53_adjoint_refuted PyOpProps
Closed under the global context
@@ C88 C88_mismatch_partial PyOpProps
Closed under the global context
@@ C88 C88_mismatch_refuted PyOpProps
Closed under the global context
@@ C54 C54_blocked_algebra PyBlockProps
Closed under the global context
@@ C54 C54_block_matrix_exists PyBlockProps
Closed under the global context
@@ C54 C54_blocked_rejects PyBlockProps
Closed under the global context
@@ C89 C89_block_mismatch_partial PyBlockProps
Closed under the global context
@@ C89 C89_block_mismatch_refuted PyBlockProps
Closed under the global context
@@ C56 C56_history_invisible PyBopProps
Closed under the global context
@@ C56 C56_cached PyBopProps
Closed under the global context
@@ C57 C57_calculus PyBopProps
Closed under the global context
@@ C57 C57_strong_product PyBopProps
Closed under the global context
@@ C57 C57_rejects PyBopProps
Closed under the global context
@@ C90 C90_compatible_spaces_partial PyBopProps
Closed under the global context
@@ C90 C90_compatible_spaces_refuted PyBopProps
Closed under the global context
@@ C91 C91_blocked_cache_partial PyBbopProps
Closed under the global context
@@ C91 C91_blocked_cache_refuted PyBbopProps
Closed under the global context
@@ C92 C92_blocked_strong_partial PyBbopProps
Closed under the global context
@@ C92 C92_blocked_strong_refuted PyBbopProps
Closed under the global context
@@ C55 C55_coefficients PyGfProps
Closed under the global context
@@ C55 C55_round_trip PyGfProps
Closed under the global context
@@ C55 C55_projections PyGfProps
Closed under the global context
@@ C93 C93_functions_partial PyGfProps
Closed under the global context
@@ C93 C93_functions_refuted PyGfProps
Closed under the global context
@@ C94 C94_operator_times_function PyGfProps
Closed under the global context
@@ C94 C94_product PyGfProps
Closed under the global context
@@ C94 C94_blocked PyGfProps
Closed under the global context
@@ C95 C95_rejects_partial PyGfProps
Closed under the global context
@@ C95 C95_rejects_refuted PyGfProps
Closed under the global context
@@ C96 C96_assignment PyBbopProps2
Closed under the global context
@@ C96 C96_block_spaces PyBbopProps2
Closed under the global context
@@ C97 C97_tensor_blas IntgProps
Closed under the global context
@@ C97 C97_tensor_loops IntgProps
Closed under the global context
@@ C98 C98_pairs_blas IntgProps
Closed under the global context
@@ C98 C98_pairs_loops IntgProps
Closed under the global context
@@ C98 C98_pairs_real_basis IntgProps
Closed under the global context
@@ C99 C99_shared_kernel_partial IntgProps
Closed under the global context
@@ C99 C99_shared_kernel_refuted IntgProps
Closed under the global context
@@ C100 C100_tensor_rule IntgProps
Closed under the global context
@@ C100 C100_pair_rule IntgProps
Closed under the global context
@@ C100 C100_pair_rule_real_basis IntgProps
Closed under the global context
@@ C101 C101_continuous_polynomial_dofs PolyProps
Closed under the global context
@@ C101 C101_order_refused PolyProps
Closed under the global context
@@ C102 C102_discontinuous_polynomial_dofs PolyProps
Closed under the global context
@@ C102 C102_refused PolyProps
Closed under the global context
@@ C103 C103_super_space_contains PolyProps
Closed under the global context
@@ C104 C104_flat_dofs_in_global_order_partial PolyProps
Closed under the global context
@@ C104 C104_flat_dofs_in_global_order_refuted PolyProps
Closed under the global context
@@ C105 C105_conormal_exists VecProps
Axioms:
ClassicalDedekindReals.sig_not_dec : forall P : Prop, {~ ~ P} + {~ P}
ClassicalDedekindReals.sig_forall_dec
  : forall P : nat -> Prop,
    (forall n : nat, {P n} + {~ P n}) ->
    {n : nat | ~ P n} + {forall n : nat, P n}
FunctionalExtensionality.functional_extensionality_dep
  : forall (A : Type) (B : A -> Type) (f g : forall x : A, B x),
    (forall x : A, f x = g x) -> f = g
@@ C105 C105_raviart_thomas_conforming VecProps
Axioms:
ClassicalDedekindReals.sig_not_dec : forall P : Prop, {~ ~ P} + {~ P}
ClassicalDedekindReals.sig_forall_dec
  : forall P : nat -> Prop,
    (forall n : nat, {P n} + {~ P n}) ->
    {n : nat | ~ P n} + {forall n : nat, P n}
FunctionalExtensionality.functional_extensionality_dep
  : forall (A : Type) (B : A -> Type) (f g : forall x : A, B x),
    (forall x : A, f x = g x) -> f = g
@@ C105 C105_rwg_conforming VecProps
Axioms:
ClassicalDedekindReals.sig_not_dec : forall P : Prop, {~ ~ P} + {~ P}
ClassicalDedekindReals.sig_forall_dec
  : forall P : nat -> Prop,
    (forall n : nat, {P n} + {~ P n}) ->
    {n : nat | ~ P n} + {forall n : nat, P n}
FunctionalExtensionality.functional_extensionality_dep
  : forall (A : Type) (B : A -> Type) (f g : forall x : A, B x),
    (forall x : A, f x = g x) -> f = g
@@ C106 C106_surface_divergence VecProps
Axioms:
ClassicalDedekindReals.sig_not_dec : forall P : Prop, {~ ~ P} + {~ P}
ClassicalDedekindReals.sig_forall_dec
  : forall P : nat -> Prop,
    (forall n : nat, {P n} + {~ P n}) ->
    {n : nat | ~ P n} + {forall n : nat, P n}
FunctionalExtensionality.functional_extensionality_dep
  : forall (A : Type) (B : A -> Type) (f g : forall x : A, B x),
    (forall x : A, f x = g x) -> f = g
@@ C106 C106_divergence_of_basis VecProps
Axioms:
ClassicalDedekindReals.sig_not_dec : forall P : Prop, {~ ~ P} + {~ P}
ClassicalDedekindReals.sig_forall_dec
  : forall P : nat -> Prop,
    (forall n : nat, {P n} + {~ P n}) ->
    {n : nat | ~ P n} + {forall n : nat, P n}
FunctionalExtensionality.functional_extensionality_dep
  : forall (A : Type) (B : A -> Type) (f g : forall x : A, B x),
    (forall x : A, f x = g x) -> f = g
@@ C107 C107_nedelec_conforming VecProps
Axioms:
ClassicalDedekindReals.sig_not_dec : forall P : Prop, {~ ~ P} + {~ P}
ClassicalDedekindReals.sig_forall_dec
  : forall P : nat -> Prop,
    (forall n : nat, {P n} + {~ P n}) ->
    {n : nat | ~ P n} + {forall n : nat, P n}
FunctionalExtensionality.functional_extensionality_dep
  : forall (A : Type) (B : A -> Type) (f g : forall x : A, B x),
    (forall x : A, f x = g x) -> f = g
@@ C107 C107_surface_curl_value VecProps
Axioms:
ClassicalDedekindReals.sig_not_dec : forall P : Prop, {~ ~ P} + {~ P}
ClassicalDedekindReals.sig_forall_dec
  : forall P : nat -> Prop,
    (forall n : nat, {P n} + {~ P n}) ->
    {n : nat | ~ P n} + {forall n : nat, P n}
FunctionalExtensionality.functional_extensionality_dep
  : forall (A : Type) (B : A -> Type) (f g : forall x : A, B x),
    (forall x : A, f x = g x) -> f = g
@@ C107 C107_curl_is_divergence VecProps
Axioms:
ClassicalDedekindReals.sig_not_dec : forall P : Prop, {~ ~ P} + {~ P}
ClassicalDedekindReals.sig_forall_dec
  : forall P : nat -> Prop,
    (forall n : nat, {P n} + {~ P n}) ->
    {n : nat | ~ P n} + {forall n : nat, P n}
FunctionalExtensionality.functional_extensionality_dep
  : forall (A : Type) (B : A -> Type) (f g : forall x : A, B x),
    (forall x : A, f x = g x) -> f = g
@@ C108 C108_normal VecProps
Axioms:
ClassicalDedekindReals.sig_not_dec : forall P : Prop, {~ ~ P} + {~ P}
ClassicalDedekindReals.sig_forall_dec
  : forall P : nat -> Prop,
    (forall n : nat, {P n} + {~ P n}) ->
    {n : nat | ~ P n} + {forall n : nat, P n}
FunctionalExtensionality.functional_extensionality_dep
  : forall (A : Type) (B : A -> Type) (f g : forall x : A, B x),
    (forall x : A, f x = g x) -> f = g
@@ C108 C108_surface_gradient VecProps
Axioms:
ClassicalDedekindReals.sig_not_dec : forall P : Prop, {~ ~ P} + {~ P}
ClassicalDedekindReals.sig_forall_dec
  : forall P : nat -> Prop,
    (forall n : nat, {P n} + {~ P n}) ->
    {n : nat | ~ P n} + {forall n : nat, P n}
FunctionalExtensionality.functional_extensionality_dep
  : forall (A : Type) (B : A -> Type) (f g : forall x : A, B x),
    (forall x : A, f x = g x) -> f = g
@@ C109 C109_polynomial_functions LagProps
Axioms:
ClassicalDedekindReals.sig_forall_dec
  : forall P : nat -> Prop,
    (forall n : nat, {P n} + {~ P n}) ->
    {n : nat | ~ P n} + {forall n : nat, P n}
FunctionalExtensionality.functional_extensionality_dep
  : forall (A : Type) (B : A -> Type) (f g : forall x : A, B x),
    (forall x : A, f x = g x) -> f = g
@@ C109 C109_linear_functions LagProps
Axioms:
ClassicalDedekindReals.sig_forall_dec
  : forall P : nat -> Prop,
    (forall n : nat, {P n} + {~ P n}) ->
    {n : nat | ~ P n} + {forall n : nat, P n}
FunctionalExtensionality.functional_extensionality_dep
  : forall (A : Type) (B : A -> Type) (f g : forall x : A, B x),
    (forall x : A, f x = g x) -> f = g
@@ C110 C110_vertex_values_partial LagProps
Axioms:
ClassicalDedekindReals.sig_forall_dec
  : forall P : nat -> Prop,
    (forall n : nat, {P n} + {~ P n}) ->
    {n : nat | ~ P n} + {forall n : nat, P n}
FunctionalExtensionality.functional_extensionality_dep
  : forall (A : Type) (B : A -> Type) (f g : forall x : A, B x),
    (forall x : A, f x = g x) -> f = g
@@ C110 C110_vertex_values_refuted LagProps
Axioms:
ClassicalDedekindReals.sig_forall_dec
  : forall P : nat -> Prop,
    (forall n : nat, {P n} + {~ P n}) ->
    {n : nat | ~ P n} + {forall n : nat, P n}
FunctionalExtensionality.functional_extensionality_dep
  : forall (A : Type) (B : A -> Type) (f g : forall x : A, B x),
    (forall x : A, f x = g x) -> f = g
@@ C111 C111_integral_partial GfIntProps
Axioms:
ClassicalDedekindReals.sig_forall_dec
  : forall P : nat -> Prop,
    (forall n : nat, {P n} + {~ P n}) ->
    {n : nat | ~ P n} + {forall n : nat, P n}
FunctionalExtensionality.functional_extensionality_dep
  : forall (A : Type) (B : A -> Type) (f g : forall x : A, B x),
    (forall x : A, f x = g x) -> f = g
@@ C111 C111_integral_refuted GfIntProps
Axioms:
ClassicalDedekindReals.sig_forall_dec
  : forall P : nat -> Prop,
    (forall n : nat, {P n} + {~ P n}) ->
    {n : nat | ~ P n} + {forall n : nat, P n}
@@ C112 C112_kernels_are_derivatives KernProps
Axioms:
ClassicalDedekindReals.sig_not_dec : forall P : Prop, {~ ~ P} + {~ P}
ClassicalDedekindReals.sig_forall_dec
  : forall P : nat -> Prop,
    (forall n : nat, {P n} + {~ P n}) ->
    {n : nat | ~ P n} + {forall n : nat, P n}
FunctionalExtensionality.functional_extensionality_dep
  : forall (A : Type) (B : A -> Type) (f g : forall x : A, B x),
    (forall x : A, f x = g x) -> f = g
@@ C112 C112_laplace KernProps
Axioms:
ClassicalDedekindReals.sig_not_dec : forall P : Prop, {~ ~ P} + {~ P}
ClassicalDedekindReals.sig_forall_dec
  : forall P : nat -> Prop,
    (forall n : nat, {P n} + {~ P n}) ->
    {n : nat | ~ P n} + {forall n : nat, P n}
FunctionalExtensionality.functional_extensionality_dep
  : forall (A : Type) (B : A -> Type) (f g : forall x : A, B x),
    (forall x : A, f x = g x) -> f = g
@@ C112 C112_symmetry KernProps
Axioms:
ClassicalDedekindReals.sig_not_dec : forall P : Prop, {~ ~ P} + {~ P}
ClassicalDedekindReals.sig_forall_dec
  : forall P : nat -> Prop,
    (forall n : nat, {P n} + {~ P n}) ->
    {n : nat | ~ P n} + {forall n : nat, P n}
FunctionalExtensionality.functional_extensionality_dep
  : forall (A : Type) (B : A -> Type) (f g : forall x : A, B x),
    (forall x : A, f x = g x) -> f = g
@@ C112 C112_dependencies KernProps
Axioms:
ClassicalDedekindReals.sig_not_dec : forall P : Prop, {~ ~ P} + {~ P}
ClassicalDedekindReals.sig_forall_dec
  : forall P : nat -> Prop,
    (forall n : nat, {P n} + {~ P n}) ->
    {n : nat | ~ P n} + {forall n : nat, P n}
FunctionalExtensionality.functional_extensionality_dep
  : forall (A : Type) (B : A -> Type) (f g : forall x : A, B x),
    (forall x : A, f x = g x) -> f = g
@@ C113 C113_potentials_solve_the_equation KernProps
Axioms:
ClassicalDedekindReals.sig_not_dec : forall P : Prop, {~ ~ P} + {~ P}
ClassicalDedekindReals.sig_forall_dec
  : forall P : nat -> Prop,
    (forall n : nat, {P n} + {~ P n}) ->
    {n : nat | ~ P n} + {forall n : nat, P n}
FunctionalExtensionality.functional_extensionality_dep
  : forall (A : Type) (B : A -> Type) (f g : forall x : A, B x),
    (forall x : A, f x = g x) -> f = g
@@ C113 C113_gradients_and_divergence KernProps
Axioms:
ClassicalDedekindReals.sig_not_dec : forall P : Prop, {~ ~ P} + {~ P}
ClassicalDedekindReals.sig_forall_dec
  : forall P : nat -> Prop,
    (forall n : nat, {P n} + {~ P n}) ->
    {n : nat | ~ P n} + {forall n : nat, P n}
FunctionalExtensionality.functional_extensionality_dep
  : forall (A : Type) (B : A -> Type) (f g : forall x : A, B x),
    (forall x : A, f x = g x) -> f = g
@@ C113 C113_evaluation_succeeds KernProps
Axioms:
ClassicalDedekindReals.sig_not_dec : forall P : Prop, {~ ~ P} + {~ P}
ClassicalDedekindReals.sig_forall_dec
  : forall P : nat -> Prop,
    (forall n : nat, {P n} + {~ P n}) ->
    {n : nat | ~ P n} + {forall n : nat, P n}
FunctionalExtensionality.functional_extensionality_dep
  : forall (A : Type) (B : A -> Type) (f g : forall x : A, B x),
    (forall x : A, f x = g x) -> f = g
@@ C113 C113_additive KernProps
Axioms:
ClassicalDedekindReals.sig_not_dec : forall P : Prop, {~ ~ P} + {~ P}
ClassicalDedekindReals.sig_forall_dec
  : forall P : nat -> Prop,
    (forall n : nat, {P n} + {~ P n}) ->
    {n : nat | ~ P n} + {forall n : nat, P n}
FunctionalExtensionality.functional_extensionality_dep
  : forall (A : Type) (B : A -> Type) (f g : forall x : A, B x),
    (forall x : A, f x = g x) -> f = g
@@ C114 C114_far_field_limits KernProps
Axioms:
ClassicalDedekindReals.sig_not_dec : forall P : Prop, {~ ~ P} + {~ P}
ClassicalDedekindReals.sig_forall_dec
  : forall P : nat -> Prop,
    (forall n : nat, {P n} + {~ P n}) ->
    {n : nat | ~ P n} + {forall n : nat, P n}
FunctionalExtensionality.functional_extensionality_dep
  : forall (A : Type) (B : A -> Type) (f g : forall x : A, B x),
    (forall x : A, f x = g x) -> f = g
@@ C115 C115_outgoing KernProps
Axioms:
ClassicalDedekindReals.sig_not_dec : forall P : Prop, {~ ~ P} + {~ P}
ClassicalDedekindReals.sig_forall_dec
  : forall P : nat -> Prop,
    (forall n : nat, {P n} + {~ P n}) ->
    {n : nat | ~ P n} + {forall n : nat, P n}
FunctionalExtensionality.functional_extensionality_dep
  : forall (A : Type) (B : A -> Type) (f g : forall x : A, B x),
    (forall x : A, f x = g x) -> f = g
@@ C116 C116_local_matrices NumIntProps
Closed under the global context
@@ C116 C116_size_mismatch NumIntProps
Closed under the global context
@@ C117 C117_basis_data_cache NumIntProps
Closed under the global context
@@ C117 C117_local_matrices NumIntProps
Closed under the global context
@@ C118 C118_potential_matrices NumIntProps
Closed under the global context
@@ C119 C119_space_preprocessing GalProps
Closed under the global context
@@ C119 C119_project GalProps
Closed under the global context
@@ C120 C120_hypersingular GalProps
Closed under the global context
@@ C120 C120_factory_slp GalProps
Closed under the global context
@@ C121 C121_multitrace_linear GalProps
Closed under the global context
@@ C121 C121_multitrace_dual GalProps
Closed under the global context
@@ C121 C121_multitrace_target_linear GalProps
Closed under the global context
@@ C121 C121_multitrace_target_dual GalProps
Closed under the global context
@@ C121 C121_pair_linear GalProps
Closed under the global context
@@ C121 C121_pair_dual GalProps
Closed under the global context
@@ C122 C122_factory_partial FspProps
Closed under the global context
@@ C122 C122_options FspProps
Closed under the global context
@@ C122 C122_factory_refuted FspProps
Closed under the global context
@@ C123 C123_attributes FspProps
Closed under the global context
@@ C124 C124_equal_spaces FspProps
Closed under the global context
@@ C124 C124_equality FspProps
Closed under the global context
@@ C124 C124_segments FspProps
Closed under the global context
@@ C125 C125_son_triangles BaryProps
Axioms:
ClassicalDedekindReals.sig_forall_dec
  : forall P : nat -> Prop,
    (forall n : nat, {P n} + {~ P n}) ->
    {n : nat | ~ P n} + {forall n : nat, P n}
FunctionalExtensionality.functional_extensionality_dep
  : forall (A : Type) (B : A -> Type) (f g : forall x : A, B x),
    (forall x : A, f x = g x) -> f = g
@@ C125 C125_sons_cover BaryProps
Axioms:
ClassicalDedekindReals.sig_forall_dec
  : forall P : nat -> Prop,
    (forall n : nat, {P n} + {~ P n}) ->
    {n : nat | ~ P n} + {forall n : nat, P n}
FunctionalExtensionality.functional_extensionality_dep
  : forall (A : Type) (B : A -> Type) (f g : forall x : A, B x),
    (forall x : A, f x = g x) -> f = g
@@ C125 C125_son_map BaryProps
Closed under the global context
@@ C125 C125_linear BaryProps
Axioms:
ClassicalDedekindReals.sig_forall_dec
  : forall P : nat -> Prop,
    (forall n : nat, {P n} + {~ P n}) ->
    {n : nat | ~ P n} + {forall n : nat, P n}
FunctionalExtensionality.functional_extensionality_dep
  : forall (A : Type) (B : A -> Type) (f g : forall x : A, B x),
    (forall x : A, f x = g x) -> f = g
@@ C125 C125_discontinuous_linear BaryProps
Axioms:
ClassicalDedekindReals.sig_forall_dec
  : forall P : nat -> Prop,
    (forall n : nat, {P n} + {~ P n}) ->
    {n : nat | ~ P n} + {forall n : nat, P n}
FunctionalExtensionality.functional_extensionality_dep
  : forall (A : Type) (B : A -> Type) (f g : forall x : A, B x),
    (forall x : A, f x = g x) -> f = g
@@ C126 C126_vector_partial BaryProps
Axioms:
ClassicalDedekindReals.sig_not_dec : forall P : Prop, {~ ~ P} + {~ P}
ClassicalDedekindReals.sig_forall_dec
  : forall P : nat -> Prop,
    (forall n : nat, {P n} + {~ P n}) ->
    {n : nat | ~ P n} + {forall n : nat, P n}
FunctionalExtensionality.functional_extensionality_dep
  : forall (A : Type) (B : A -> Type) (f g : forall x : A, B x),
    (forall x : A, f x = g x) -> f = g
@@ C126 C126_vector_refuted BaryProps
Axioms:
ClassicalDedekindReals.sig_forall_dec
  : forall P : nat -> Prop,
    (forall n : nat, {P n} + {~ P n}) ->
    {n : nat | ~ P n} + {forall n : nat, P n}
FunctionalExtensionality.functional_extensionality_dep
  : forall (A : Type) (B : A -> Type) (f g : forall x : A, B x),
    (forall x : A, f x = g x) -> f = g
@@ C127 C127_dual_cells BaryProps
Axioms:
ClassicalDedekindReals.sig_forall_dec
  : forall P : nat -> Prop,
    (forall n : nat, {P n} + {~ P n}) ->
    {n : nat | ~ P n} + {forall n : nat, P n}
FunctionalExtensionality.functional_extensionality_dep
  : forall (A : Type) (B : A -> Type) (f g : forall x : A, B x),
    (forall x : A, f x = g x) -> f = g
@@ C127 C127_cells_touch_vertex BaryProps
Axioms:
ClassicalDedekindReals.sig_forall_dec
  : forall P : nat -> Prop,
    (forall n : nat, {P n} + {~ P n}) ->
    {n : nat | ~ P n} + {forall n : nat, P n}
FunctionalExtensionality.functional_extensionality_dep
  : forall (A : Type) (B : A -> Type) (f g : forall x : A, B x),
    (forall x : A, f x = g x) -> f = g
@@ C127 C127_constants BaryProps
Axioms:
ClassicalDedekindReals.sig_forall_dec
  : forall P : nat -> Prop,
    (forall n : nat, {P n} + {~ P n}) ->
    {n : nat | ~ P n} + {forall n : nat, P n}
FunctionalExtensionality.functional_extensionality_dep
  : forall (A : Type) (B : A -> Type) (f g : forall x : A, B x),
    (forall x : A, f x = g x) -> f = g
@@ C128 C128_dual_functions BcProps
Axioms:
ClassicalDedekindReals.sig_not_dec : forall P : Prop, {~ ~ P} + {~ P}
ClassicalDedekindReals.sig_forall_dec
  : forall P : nat -> Prop,
    (forall n : nat, {P n} + {~ P n}) ->
    {n : nat | ~ P n} + {forall n : nat, P n}
FunctionalExtensionality.functional_extensionality_dep
  : forall (A : Type) (B : A -> Type) (f g : forall x : A, B x),
    (forall x : A, f x = g x) -> f = g
@@ C128 C128_div_conforming BcProps
Axioms:
ClassicalDedekindReals.sig_not_dec : forall P : Prop, {~ ~ P} + {~ P}
ClassicalDedekindReals.sig_forall_dec
  : forall P : nat -> Prop,
    (forall n : nat, {P n} + {~ P n}) ->
    {n : nat | ~ P n} + {forall n : nat, P n}
FunctionalExtensionality.functional_extensionality_dep
  : forall (A : Type) (B : A -> Type) (f g : forall x : A, B x),
    (forall x : A, f x = g x) -> f = g
@@ C128 C128_rotated BcProps
Axioms:
ClassicalDedekindReals.sig_not_dec : forall P : Prop, {~ ~ P} + {~ P}
ClassicalDedekindReals.sig_forall_dec
  : forall P : nat -> Prop,
    (forall n : nat, {P n} + {~ P n}) ->
    {n : nat | ~ P n} + {forall n : nat, P n}
FunctionalExtensionality.functional_extensionality_dep
  : forall (A : Type) (B : A -> Type) (f g : forall x : A, B x),
    (forall x : A, f x = g x) -> f = g
@@ C129 C129_construction_ends_partial BcProps
Axioms:
ClassicalDedekindReals.sig_forall_dec
  : forall P : nat -> Prop,
    (forall n : nat, {P n} + {~ P n}) ->
    {n : nat | ~ P n} + {forall n : nat, P n}
FunctionalExtensionality.functional_extensionality_dep
  : forall (A : Type) (B : A -> Type) (f g : forall x : A, B x),
    (forall x : A, f x = g x) -> f = g
@@ C129 C129_construction_ends_refuted BcProps
Axioms:
ClassicalDedekindReals.sig_forall_dec
  : forall P : nat -> Prop,
    (forall n : nat, {P n} + {~ P n}) ->
    {n : nat | ~ P n} + {forall n : nat, P n}
FunctionalExtensionality.functional_extensionality_dep
  : forall (A : Type) (B : A -> Type) (f g : forall x : A, B x),
    (forall x : A, f x = g x) -> f = g
@@ C129 C129_bad_orientation_refuted BcProps
Axioms:
ClassicalDedekindReals.sig_forall_dec
  : forall P : nat -> Prop,
    (forall n : nat, {P n} + {~ P n}) ->
    {n : nat | ~ P n} + {forall n : nat, P n}
FunctionalExtensionality.functional_extensionality_dep
  : forall (A : Type) (B : A -> Type) (f g : forall x : A, B x),
    (forall x : A, f x = g x) -> f = g
@@ C130 C130_import_ascii FileProps
Closed under the global context
@@ C130 C130_import_binary FileProps
Closed under the global context
@@ C131 C131_data_set_ascii FileProps
Closed under the global context
@@ C131 C131_data_set_binary FileProps
Closed under the global context
@@ C131 C131_export FileProps
Closed under the global context
@@ C132 C132_round_trip_ascii FileProps
Closed under the global context
@@ C132 C132_round_trip_binary FileProps
Closed under the global context
@@ C133 C133_domain_indices_partial FileProps
Closed under the global context
@@ C133 C133_import_partial FileProps
Closed under the global context
@@ C133 C133_domain_indices_refuted FileProps
Closed under the global context
@@ C134 C134_ids_partial FileProps
Closed under the global context
@@ C134 C134_ids_ignored FileProps
Closed under the global context
@@ C134 C134_ids_refuted FileProps
Closed under the global context
@@ C135 C135_binary_data_partial FileProps
Closed under the global context
@@ C135 C135_binary_data_refuted FileProps
Closed under the global context
@@ C136 C136_series_partial FileProps
Closed under the global context
@@ C136 C136_series_refuted FileProps
Closed under the global context
@@ C136 C136_mixed_types_refuted FileProps
Closed under the global context
@@ C137 C137_transformation_partial FileProps
Closed under the global context
@@ C137 C137_modes_partial FileProps
Closed under the global context
@@ C137 C137_components_raise FileProps
Closed under the global context
@@ C137 C137_transformation_refuted FileProps
Closed under the global context
@@ C138 C138_several_data_sets_partial FileProps
Closed under the global context
@@ C138 C138_several_data_sets_refuted FileProps
Closed under the global context
@@ C139 C139_dangling_partial FileProps
Closed under the global context
@@ C139 C139_dangling_binary_partial FileProps
Closed under the global context
@@ C139 C139_dangling_refuted FileProps
Closed under the global context
@@ C140 C140_import_ends FileProps
Closed under the global context
@@ C141 C141_gmres SlvProps
Closed under the global context
@@ C141 C141_gmres_applied SlvProps
Closed under the global context
@@ C141 C141_cg SlvProps
Closed under the global context
@@ C141 C141_square SlvProps
Closed under the global context
@@ C142 C142_strong SlvProps
Closed under the global context
@@ C142 C142_strong_applied SlvProps
Closed under the global context
@@ C143 C143_other_space_partial SlvProps
Closed under the global context
@@ C143 C143_other_space_refuted SlvProps
Closed under the global context
@@ C144 C144_projected_rhs_partial SlvProps
Closed under the global context
@@ C144 C144_projected_rhs_refuted SlvProps
Closed under the global context
@@ C145 C145_lu SlvProps
Closed under the global context
@@ C146 C146_lu_factors_partial SlvProps
Closed under the global context
@@ C146 C146_lu_factors_refuted SlvProps
Closed under the global context
@@ C147 C147_blocked_weak SlvBlkProps
Closed under the global context
@@ C147 C147_blocked_square SlvBlkProps
Closed under the global context
@@ C147 C147_blocked_strong SlvBlkProps
Closed under the global context
@@ C148 C148_rhs_list_partial SlvBlkProps
Closed under the global context
@@ C148 C148_short_partial SlvBlkProps
Closed under the global context
@@ C148 C148_rhs_list_refuted SlvBlkProps
Closed under the global context
@@ C149 C149_evaluate PotProps
Closed under the global context
@@ C149 C149_linear PotProps
Closed under the global context
@@ C150 C150_mismatch_partial PotProps
Closed under the global context
@@ C150 C150_mismatch_refuted PotProps
Closed under the global context
@@ C151 C151_local_contributions PotAsmProps
Axioms:
ClassicalDedekindReals.sig_not_dec : forall P : Prop, {~ ~ P} + {~ P}
ClassicalDedekindReals.sig_forall_dec
  : forall P : nat -> Prop,
    (forall n : nat, {P n} + {~ P n}) ->
    {n : nat | ~ P n} + {forall n : nat, P n}
FunctionalExtensionality.functional_extensionality_dep
  : forall (A : Type) (B : A -> Type) (f g : forall x : A, B x),
    (forall x : A, f x = g x) -> f = g
@@ C151 C151_integrators PotAsmProps
Closed under the global context
@@ C152 C152_potential_blocks PotAsmProps
Axioms:
ClassicalDedekindReals.sig_not_dec : forall P : Prop, {~ ~ P} + {~ P}
ClassicalDedekindReals.sig_forall_dec
  : forall P : nat -> Prop,
    (forall n : nat, {P n} + {~ P n}) ->
    {n : nat | ~ P n} + {forall n : nat, P n}
FunctionalExtensionality.functional_extensionality_dep
  : forall (A : Type) (B : A -> Type) (f g : forall x : A, B x),
    (forall x : A, f x = g x) -> f = g
@@ C153 C153_orders PotAsmProps
Axioms:
ClassicalDedekindReals.sig_not_dec : forall P : Prop, {~ ~ P} + {~ P}
ClassicalDedekindReals.sig_forall_dec
  : forall P : nat -> Prop,
    (forall n : nat, {P n} + {~ P n}) ->
    {n : nat | ~ P n} + {forall n : nat, P n}
FunctionalExtensionality.functional_extensionality_dep
  : forall (A : Type) (B : A -> Type) (f g : forall x : A, B x),
    (forall x : A, f x = g x) -> f = g
@@ C153 C153_choice PotAsmProps
Axioms:
ClassicalDedekindReals.sig_not_dec : forall P : Prop, {~ ~ P} + {~ P}
ClassicalDedekindReals.sig_forall_dec
  : forall P : nat -> Prop,
    (forall n : nat, {P n} + {~ P n}) ->
    {n : nat | ~ P n} + {forall n : nat, P n}
FunctionalExtensionality.functional_extensionality_dep
  : forall (A : Type) (B : A -> Type) (f g : forall x : A, B x),
    (forall x : A, f x = g x) -> f = g
@@ C154 C154_row_geometry PotAsmProps
Closed under the global context
@@ C155 C155_dof_volumes PotAsmProps
Axioms:
ClassicalDedekindReals.sig_forall_dec
  : forall P : nat -> Prop,
    (forall n : nat, {P n} + {~ P n}) ->
    {n : nat | ~ P n} + {forall n : nat, P n}
FunctionalExtensionality.functional_extensionality_dep
  : forall (A : Type) (B : A -> Type) (f g : forall x : A, B x),
    (forall x : A, f x = g x) -> f = g
@@ C155 C155_zero_tests PotAsmProps
Axioms:
ClassicalDedekindReals.sig_forall_dec
  : forall P : nat -> Prop,
    (forall n : nat, {P n} + {~ P n}) ->
    {n : nat | ~ P n} + {forall n : nat, P n}
FunctionalExtensionality.functional_extensionality_dep
  : forall (A : Type) (B : A -> Type) (f g : forall x : A, B x),
    (forall x : A, f x = g x) -> f = g
@@ C156 C156_zero_tests_of_potentials_partial PotAsmProps
Axioms:
ClassicalDedekindReals.sig_forall_dec
  : forall P : nat -> Prop,
    (forall n : nat, {P n} + {~ P n}) ->
    {n : nat | ~ P n} + {forall n : nat, P n}
FunctionalExtensionality.functional_extensionality_dep
  : forall (A : Type) (B : A -> Type) (f g : forall x : A, B x),
    (forall x : A, f x = g x) -> f = g
@@ C156 C156_zero_tests_of_potentials_refuted PotAsmProps
Axioms:
ClassicalDedekindReals.sig_forall_dec
  : forall P : nat -> Prop,
    (forall n : nat, {P n} + {~ P n}) ->
    {n : nat | ~ P n} + {forall n : nat, P n}
FunctionalExtensionality.functional_extensionality_dep
  : forall (A : Type) (B : A -> Type) (f g : forall x : A, B x),
    (forall x : A, f x = g x) -> f = g
@@ C157 C157_refine_ends RefProps
Axioms:
ClassicalDedekindReals.sig_forall_dec
  : forall P : nat -> Prop,
    (forall n : nat, {P n} + {~ P n}) ->
    {n : nat | ~ P n} + {forall n : nat, P n}
FunctionalExtensionality.functional_extensionality_dep
  : forall (A : Type) (B : A -> Type) (f g : forall x : A, B x),
    (forall x : A, f x = g x) -> f = g
@@ C158 C158_surface RefProps
Axioms:
ClassicalDedekindReals.sig_forall_dec
  : forall P : nat -> Prop,
    (forall n : nat, {P n} + {~ P n}) ->
    {n : nat | ~ P n} + {forall n : nat, P n}
FunctionalExtensionality.functional_extensionality_dep
  : forall (A : Type) (B : A -> Type) (f g : forall x : A, B x),
    (forall x : A, f x = g x) -> f = g
@@ C159 C159_smallest RefProps
Axioms:
ClassicalDedekindReals.sig_forall_dec
  : forall P : nat -> Prop,
    (forall n : nat, {P n} + {~ P n}) ->
    {n : nat | ~ P n} + {forall n : nat, P n}
FunctionalExtensionality.functional_extensionality_dep
  : forall (A : Type) (B : A -> Type) (f g : forall x : A, B x),
    (forall x : A, f x = g x) -> f = g
@@ C159 C159_order RefProps
Axioms:
ClassicalDedekindReals.sig_forall_dec
  : forall P : nat -> Prop,
    (forall n : nat, {P n} + {~ P n}) ->
    {n : nat | ~ P n} + {forall n : nat, P n}
FunctionalExtensionality.functional_extensionality_dep
  : forall (A : Type) (B : A -> Type) (f g : forall x : A, B x),
    (forall x : A, f x = g x) -> f = g
@@ C160 C160_tiles RefProps
Axioms:
ClassicalDedekindReals.sig_forall_dec
  : forall P : nat -> Prop,
    (forall n : nat, {P n} + {~ P n}) ->
    {n : nat | ~ P n} + {forall n : nat, P n}
FunctionalExtensionality.functional_extensionality_dep
  : forall (A : Type) (B : A -> Type) (f g : forall x : A, B x),
    (forall x : A, f x = g x) -> f = g
@@ C161 C161_quality RefProps
Axioms:
ClassicalDedekindReals.sig_forall_dec
  : forall P : nat -> Prop,
    (forall n : nat, {P n} + {~ P n}) ->
    {n : nat | ~ P n} + {forall n : nat, P n}
FunctionalExtensionality.functional_extensionality_dep
  : forall (A : Type) (B : A -> Type) (f g : forall x : A, B x),
    (forall x : A, f x = g x) -> f = g
@@ C161 C161_longest RefProps
Axioms:
ClassicalDedekindReals.sig_not_dec : forall P : Prop, {~ ~ P} + {~ P}
ClassicalDedekindReals.sig_forall_dec
  : forall P : nat -> Prop,
    (forall n : nat, {P n} + {~ P n}) ->
    {n : nat | ~ P n} + {forall n : nat, P n}
FunctionalExtensionality.functional_extensionality_dep
  : forall (A : Type) (B : A -> Type) (f g : forall x : A, B x),
    (forall x : A, f x = g x) -> f = g
@@ C162 C162_no_hanging_nodes_partial RefProps
Axioms:
ClassicalDedekindReals.sig_forall_dec
  : forall P : nat -> Prop,
    (forall n : nat, {P n} + {~ P n}) ->
    {n : nat | ~ P n} + {forall n : nat, P n}
FunctionalExtensionality.functional_extensionality_dep
  : forall (A : Type) (B : A -> Type) (f g : forall x : A, B x),
    (forall x : A, f x = g x) -> f = g
@@ C162 C162_no_hanging_nodes_refuted RefProps
Axioms:
ClassicalDedekindReals.sig_not_dec : forall P : Prop, {~ ~ P} + {~ P}
ClassicalDedekindReals.sig_forall_dec
  : forall P : nat -> Prop,
    (forall n : nat, {P n} + {~ P n}) ->
    {n : nat | ~ P n} + {forall n : nat, P n}
FunctionalExtensionality.functional_extensionality_dep
  : forall (A : Type) (B : A -> Type) (f g : forall x : A, B x),
    (forall x : A, f x = g x) -> f = g
@@ C163 C163_marks_partial RefProps
Closed under the global context
@@ C163 C163_marks_refuted RefProps
Axioms:
ClassicalDedekindReals.sig_forall_dec
  : forall P : nat -> Prop,
    (forall n : nat, {P n} + {~ P n}) ->
    {n : nat | ~ P n} + {forall n : nat, P n}
FunctionalExtensionality.functional_extensionality_dep
  : forall (A : Type) (B : A -> Type) (f g : forall x : A, B x),
    (forall x : A, f x = g x) -> f = g
@@ C164 C164_connectivity SingProps
Closed under the global context
@@ C165 C165_singular_part SingProps
Closed under the global context
@@ C165 C165_different_grids SingProps
Closed under the global context
@@ C165 C165_rest SingProps
Closed under the global context
@@ C166 C166_interpolation ChebProps
Axioms:
ClassicalDedekindReals.sig_not_dec : forall P : Prop, {~ ~ P} + {~ P}
ClassicalDedekindReals.sig_forall_dec
  : forall P : nat -> Prop,
    (forall n : nat, {P n} + {~ P n}) ->
    {n : nat | ~ P n} + {forall n : nat, P n}
FunctionalExtensionality.functional_extensionality_dep
  : forall (A : Type) (B : A -> Type) (f g : forall x : A, B x),
    (forall x : A, f x = g x) -> f = g
@@ C166 C166_reproduces ChebProps
Axioms:
ClassicalDedekindReals.sig_not_dec : forall P : Prop, {~ ~ P} + {~ P}
ClassicalDedekindReals.sig_forall_dec
  : forall P : nat -> Prop,
    (forall n : nat, {P n} + {~ P n}) ->
    {n : nat | ~ P n} + {forall n : nat, P n}
FunctionalExtensionality.functional_extensionality_dep
  : forall (A : Type) (B : A -> Type) (f g : forall x : A, B x),
    (forall x : A, f x = g x) -> f = g
@@ C166 C166_nodes ChebProps
Axioms:
ClassicalDedekindReals.sig_not_dec : forall P : Prop, {~ ~ P} + {~ P}
ClassicalDedekindReals.sig_forall_dec
  : forall P : nat -> Prop,
    (forall n : nat, {P n} + {~ P n}) ->
    {n : nat | ~ P n} + {forall n : nat, P n}
FunctionalExtensionality.functional_extensionality_dep
  : forall (A : Type) (B : A -> Type) (f g : forall x : A, B x),
    (forall x : A, f x = g x) -> f = g
@@ C167 C167_derivative ChebProps
Axioms:
ClassicalDedekindReals.sig_not_dec : forall P : Prop, {~ ~ P} + {~ P}
ClassicalDedekindReals.sig_forall_dec
  : forall P : nat -> Prop,
    (forall n : nat, {P n} + {~ P n}) ->
    {n : nat | ~ P n} + {forall n : nat, P n}
FunctionalExtensionality.functional_extensionality_dep
  : forall (A : Type) (B : A -> Type) (f g : forall x : A, B x),
    (forall x : A, f x = g x) -> f = g
@@ C168 C168_children ChebProps
Axioms:
ClassicalDedekindReals.sig_not_dec : forall P : Prop, {~ ~ P} + {~ P}
ClassicalDedekindReals.sig_forall_dec
  : forall P : nat -> Prop,
    (forall n : nat, {P n} + {~ P n}) ->
    {n : nat | ~ P n} + {forall n : nat, P n}
FunctionalExtensionality.functional_extensionality_dep
  : forall (A : Type) (B : A -> Type) (f g : forall x : A, B x),
    (forall x : A, f x = g x) -> f = g
@@ C169 C169_derivative3d ChebProps
Axioms:
ClassicalDedekindReals.sig_not_dec : forall P : Prop, {~ ~ P} + {~ P}
ClassicalDedekindReals.sig_forall_dec
  : forall P : nat -> Prop,
    (forall n : nat, {P n} + {~ P n}) ->
    {n : nat | ~ P n} + {forall n : nat, P n}
FunctionalExtensionality.functional_extensionality_dep
  : forall (A : Type) (B : A -> Type) (f g : forall x : A, B x),
    (forall x : A, f x = g x) -> f = g
@@ C170 C170_regular_sphere_surface SphProps
Axioms:
ClassicalDedekindReals.sig_not_dec : forall P : Prop, {~ ~ P} + {~ P}
ClassicalDedekindReals.sig_forall_dec
  : forall P : nat -> Prop,
    (forall n : nat, {P n} + {~ P n}) ->
    {n : nat | ~ P n} + {forall n : nat, P n}
FunctionalExtensionality.functional_extensionality_dep
  : forall (A : Type) (B : A -> Type) (f g : forall x : A, B x),
    (forall x : A, f x = g x) -> f = g
@@ C171 C171_regular_sphere_geometry SphProps
Axioms:
ClassicalDedekindReals.sig_not_dec : forall P : Prop, {~ ~ P} + {~ P}
ClassicalDedekindReals.sig_forall_dec
  : forall P : nat -> Prop,
    (forall n : nat, {P n} + {~ P n}) ->
    {n : nat | ~ P n} + {forall n : nat, P n}
FunctionalExtensionality.functional_extensionality_dep
  : forall (A : Type) (B : A -> Type) (f g : forall x : A, B x),
    (forall x : A, f x = g x) -> f = g
@@ C172 C172_entity_from_index EntProps
Closed under the global context
@@ C173 C173_later_calls_partial EntProps
Closed under the global context
@@ C173 C173_first_call EntProps
Closed under the global context
@@ C173 C173_entity_from_insertion_index_refuted EntProps
Closed under the global context
@@ C174 C174_dof_to_vertex TraceProps
Closed under the global context
@@ C175 C175_trace TraceProps
Closed under the global context
@@ C176 C176_element_data_round_trip EdaProps
Closed under the global context
@@ C177 C177_enough_rows_partial EdaProps
Closed under the global context
@@ C177 C177_rows_checked_refuted EdaProps
Closed under the global context
@@ C178 C178_structured_planes EdaProps
Axioms:
ClassicalDedekindReals.sig_forall_dec
  : forall P : nat -> Prop,
    (forall n : nat, {P n} + {~ P n}) ->
    {n : nat | ~ P n} + {forall n : nat, P n}
FunctionalExtensionality.functional_extensionality_dep
  : forall (A : Type) (B : A -> Type) (f g : forall x : A, B x),
    (forall x : A, f x = g x) -> f = g
@@ C178 C178_structured_rejects EdaProps
Axioms:
ClassicalDedekindReals.sig_forall_dec
  : forall P : nat -> Prop,
    (forall n : nat, {P n} + {~ P n}) ->
    {n : nat | ~ P n} + {forall n : nat, P n}
FunctionalExtensionality.functional_extensionality_dep
  : forall (A : Type) (B : A -> Type) (f g : forall x : A, B x),
    (forall x : A, f x = g x) -> f = g
@@ C179 C179_single_dof UssProps
Closed under the global context
@@ C180 C180_bounding_box UssProps
Axioms:
ClassicalDedekindReals.sig_forall_dec
  : forall P : nat -> Prop,
    (forall n : nat, {P n} + {~ P n}) ->
    {n : nat | ~ P n} + {forall n : nat, P n}
FunctionalExtensionality.functional_extensionality_dep
  : forall (A : Type) (B : A -> Type) (f g : forall x : A, B x),
    (forall x : A, f x = g x) -> f = g
