{
 "claims": [
  {
   "property": "C01",
   "status": "proved",
   "theorems": [
    "C01_sort_permutes"
   ],
   "note": ""
  },
  {
   "property": "C02",
   "status": "proved",
   "theorems": [
    "C02_sort_keeps_pairs"
   ],
   "note": ""
  },
  {
   "property": "C03",
   "status": "proved",
   "theorems": [
    "C03_sort_sorted_stable"
   ],
   "note": ""
  },
  {
   "property": "C04",
   "status": "proved",
   "theorems": [
    "C04_sort_inside_first"
   ],
   "note": ""
  },
  {
   "property": "C05",
   "status": "proved",
   "theorems": [
    "C05_criteria_total_preorders",
    "C05_criteria_meaning",
    "C05_criteria_imaginary",
    "C05_criteria_conjugate"
   ],
   "note": ""
  },
  {
   "property": "C06",
   "status": "proved",
   "theorems": [
    "C06_pool_vectors_live_and_distinct"
   ],
   "note": ""
  },
  {
   "property": "C07",
   "status": "proved",
   "theorems": [
    "C07_membership_interval_ellipse",
    "C07_setters_define_region",
    "C07_ring_polar",
    "C07_ring_boundary_refuted"
   ],
   "note": "Proved on the domain given in the statement; outside of it the code violates the property, witnessed by C07_ring_boundary_refuted."
  },
  {
   "property": "C08",
   "status": "proved",
   "theorems": [
    "C08_bounding_box_contains",
    "C08_bounding_box_tight"
   ],
   "note": ""
  },
  {
   "property": "C09",
   "status": "proved",
   "theorems": [
    "C09_contour_ellipse",
    "C09_contour_interval",
    "C09_contour_segment",
    "C09_contour_polygon",
    "C09_contour_ring",
    "C09_odd_n_refuted",
    "C09_real_scalars_refuted",
    "C09_single_point_refuted"
   ],
   "note": "Proved on the domain given in the statement; outside of it the code violates the property, witnessed by C09_odd_n_refuted, C09_real_scalars_refuted, C09_single_point_refuted."
  },
  {
   "property": "C10",
   "status": "proved",
   "theorems": [
    "C10_axisymmetric_sound",
    "C10_vertical_ring_refuted",
    "C10_conjugate_halves_ellipse",
    "C10_conjugate_halves_interval_refuted"
   ],
   "note": "Proved on the domain given in the statement; outside of it the code violates the property, witnessed by C10_vertical_ring_refuted, C10_conjugate_halves_interval_refuted."
  },
  {
   "property": "C11",
   "status": "proved",
   "theorems": [
    "C11_push_pop",
    "C11_osfactor_tracks_push"
   ],
   "note": ""
  },
  {
   "property": "C12",
   "status": "proved",
   "theorems": [
    "C12_polygon_parity",
    "C12_polygon_zero_near_edge",
    "C12_boundary_refuted"
   ],
   "note": "Proved on the domain given in the statement; outside of it the code violates the property, witnessed by C12_boundary_refuted."
  },
  {
   "property": "C13",
   "status": "proved",
   "theorems": [
    "C13_points_partition",
    "C13_scatter_duplicates"
   ],
   "note": ""
  },
  {
   "property": "C14",
   "status": "proved",
   "theorems": [
    "C14_derivative",
    "C14_log_zero_refuted"
   ],
   "note": "Proved on the domain given in the statement; outside of it the code violates the property, witnessed by C14_log_zero_refuted."
  },
  {
   "property": "C15",
   "status": "proved",
   "theorems": [
    "C15_rational_scalar",
    "C15_rational_matrix"
   ],
   "note": ""
  },
  {
   "property": "C16",
   "status": "proved",
   "theorems": [
    "C16_eigenvectors",
    "C16_eigenvalues_in_domain"
   ],
   "note": ""
  },
  {
   "property": "C17",
   "status": "proved",
   "theorems": [
    "C17_duplicate_same",
    "C17_duplicate_independent",
    "C17_duplicate_succeeds"
   ],
   "note": ""
  },
  {
   "property": "C18",
   "status": "proved",
   "theorems": [
    "C18_parallel",
    "C18_sync_child_refuted"
   ],
   "note": "Proved on the domain given in the statement; outside of it the code violates the property, witnessed by C18_sync_child_refuted."
  },
  {
   "property": "C19",
   "status": "proved",
   "theorems": [
    "C19_columns_refine_basis",
    "C19_restore_not_out",
    "C19_change_noticed",
    "C19_resize_dangling_refuted"
   ],
   "note": "Proved on the domain given in the statement; outside of it the code violates the property, witnessed by C19_resize_dangling_refuted."
  },
  {
   "property": "C20",
   "status": "proved",
   "theorems": [
    "C20_active_columns_ordered",
    "C20_current_refuted",
    "C20_failed_call_refuted"
   ],
   "note": "Proved on the domain given in the statement; outside of it the code violates the property, witnessed by C20_current_refuted, C20_failed_call_refuted."
  },
  {
   "property": "C21",
   "status": "proved",
   "theorems": [
    "C21_set_num_constraints"
   ],
   "note": ""
  },
  {
   "property": "C22",
   "status": "proved",
   "theorems": [
    "C22_products_are_current",
    "C22_fixed_matrix",
    "C22_set_matrix_refuted",
    "C22_contiguous_refuted",
    "C22_split_refuted"
   ],
   "note": "Proved on the domain given in the statement; outside of it the code violates the property, witnessed by C22_set_matrix_refuted, C22_contiguous_refuted, C22_split_refuted."
  },
  {
   "property": "C23",
   "status": "proved",
   "theorems": [
    "C23_orthogonalize_column",
    "C23_orthogonalize_vec",
    "C23_norm_in_H_refuted",
    "C23_indefinite_column"
   ],
   "note": "Proved on the domain given in the statement; outside of it the code violates the property, witnessed by C23_norm_in_H_refuted."
  },
  {
   "property": "C24",
   "status": "proved",
   "theorems": [
    "C24_insert_vecs",
    "C24_insert_vecs_room",
    "C24_insert_constraints"
   ],
   "note": ""
  },
  {
   "property": "C25",
   "status": "proved",
   "theorems": [
    "C25_some_column",
    "C25_unselected_refuted"
   ],
   "note": "Proved on the domain given in the statement; outside of it the code violates the property, witnessed by C25_unselected_refuted."
  },
  {
   "property": "C26",
   "status": "proved",
   "theorems": [
    "C26_buffer_large_enough",
    "C26_fewer_constraints_refuted"
   ],
   "note": "Proved on the domain given in the statement; outside of it the code violates the property, witnessed by C26_fewer_constraints_refuted."
  },
  {
   "property": "C27",
   "status": "proved",
   "theorems": [
    "C27_split_sizes",
    "C27_views_alias_parent",
    "C27_views_show_parent",
    "C27_restore_reports",
    "C27_resize_refuted",
    "C27_constraints_refuted",
    "C27_unrestored_refuted"
   ],
   "note": "Proved on the domain given in the statement; outside of it the code violates the property, witnessed by C27_resize_refuted, C27_constraints_refuted, C27_unrestored_refuted."
  },
  {
   "property": "C28",
   "status": "proved",
   "theorems": [
    "C28_signature_belongs_to_column",
    "C28_copy_refuted",
    "C28_grow_refuted",
    "C28_fewer_constraints_refuted"
   ],
   "note": "Proved on the domain given in the statement; outside of it the code violates the property, witnessed by C28_copy_refuted, C28_grow_refuted, C28_fewer_constraints_refuted."
  },
  {
   "property": "C29",
   "status": "proved",
   "theorems": [
    "C29_slepc_abs_modulus"
   ],
   "note": ""
  },
  {
   "property": "C30",
   "status": "proved",
   "theorems": [
    "C30_real_scalars_symmetric",
    "C30_polygon_refuted"
   ],
   "note": "Proved on the domain given in the statement; outside of it the code violates the property, witnessed by C30_polygon_refuted."
  },
  {
   "property": "C31",
   "status": "proved",
   "theorems": [
    "C31_sum_quadrature",
    "C31_sum_quadrature_frame",
    "C31_dot_quadrature",
    "C31_trace_quadrature",
    "C31_trace_partitions_refuted",
    "C31_sum_accumulates_refuted"
   ],
   "note": "Proved on the domain given in the statement; outside of it the code violates the property, witnessed by C31_trace_partitions_refuted, C31_sum_accumulates_refuted."
  },
  {
   "property": "C32",
   "status": "proved",
   "theorems": [
    "C32_methods_in_table",
    "C32_set_method_refuted"
   ],
   "note": "Proved on the domain given in the statement; outside of it the code violates the property, witnessed by C32_set_method_refuted."
  },
  {
   "property": "C33",
   "status": "proved",
   "theorems": [
    "C33_first_column"
   ],
   "note": ""
  },
  {
   "property": "C34",
   "status": "proved",
   "theorems": [
    "C34_phi_first_column",
    "C34_phi_truncated_series"
   ],
   "note": ""
  },
  {
   "property": "C35",
   "status": "proved",
   "theorems": [
    "C35_orthogonalize",
    "C35_lower_triangle_refuted",
    "C35_indefinite_refuted"
   ],
   "note": "Proved on the domain given in the statement; outside of it the code violates the property, witnessed by C35_lower_triangle_refuted, C35_indefinite_refuted."
  },
  {
   "property": "C36",
   "status": "proved",
   "theorems": [
    "C36_orthonormalize_column"
   ],
   "note": ""
  },
  {
   "property": "C37",
   "status": "proved",
   "theorems": [
    "C37_eigenpairs",
    "C37_every_eigenpair",
    "C37_infinite",
    "C37_round_trip",
    "C37_real_pairs_shift",
    "C37_real_pairs_sinvert",
    "C37_real_values_cayley",
    "C37_real_pairs_cayley_refuted"
   ],
   "note": "Proved on the domain given in the statement; outside of it the code violates the property, witnessed by C37_real_pairs_cayley_refuted."
  },
  {
   "property": "C38",
   "status": "proved",
   "theorems": [
    "C38_histories",
    "C38_matrices_returned",
    "C38_change_while_shifted_refuted",
    "C38_shift_after_getoperator_refuted",
    "C38_opposite_cayley_shift_refuted",
    "C38_antishift_from_zero_refuted",
    "C38_antishift_to_zero_refuted",
    "C38_getoperator_after_change_refuted",
    "C38_postsolve_not_shifted_refuted",
    "C38_transpose_cayley_inplace_refuted"
   ],
   "note": "Proved on the domain given in the statement; outside of it the code violates the property, witnessed by C38_change_while_shifted_refuted, C38_shift_after_getoperator_refuted, C38_opposite_cayley_shift_refuted, C38_antishift_from_zero_refuted, C38_antishift_to_zero_refuted, C38_getoperator_after_change_refuted, C38_postsolve_not_shifted_refuted, C38_transpose_cayley_inplace_refuted."
  },
  {
   "property": "C39",
   "status": "proved",
   "theorems": [
    "C39_polynomials",
    "C39_eigenpairs"
   ],
   "note": ""
  },
  {
   "property": "C40",
   "status": "proved",
   "theorems": [
    "C40_shell_diagonal",
    "C40_shell_diagonal_refuted"
   ],
   "note": "Proved on the domain given in the statement; outside of it the code violates the property, witnessed by C40_shell_diagonal_refuted."
  },
  {
   "property": "C41",
   "status": "proved",
   "theorems": [
    "C41_basis_values",
    "C41_every_basis",
    "C41_residual",
    "C41_real_arithmetic",
    "C41_real_residual",
    "C41_legendre_refuted",
    "C41_laguerre_refuted",
    "C41_hermite_refuted"
   ],
   "note": "Proved on the domain given in the statement; outside of it the code violates the property, witnessed by C41_legendre_refuted, C41_laguerre_refuted, C41_hermite_refuted."
  },
  {
   "property": "C42",
   "status": "proved",
   "theorems": [
    "C42_setup",
    "C42_sound",
    "C42_complete",
    "C42_again",
    "C42_sinvert_degree3_refuted",
    "C42_shift_target_refuted",
    "C42_norm_transform_refuted"
   ],
   "note": "Proved on the domain given in the statement; outside of it the code violates the property, witnessed by C42_sinvert_degree3_refuted, C42_shift_target_refuted, C42_norm_transform_refuted."
  },
  {
   "property": "C43",
   "status": "proved",
   "theorems": [
    "C43_setup",
    "C43_sound",
    "C43_complete",
    "C43_symmetric",
    "C43_hamiltonian",
    "C43_singular_refuted",
    "C43_gyroscopic_zero_refuted"
   ],
   "note": "Proved on the domain given in the statement; outside of it the code violates the property, witnessed by C43_singular_refuted, C43_gyroscopic_zero_refuted."
  },
  {
   "property": "C44",
   "status": "proved",
   "theorems": [
    "C44_full_refuted",
    "C44_arnoldi",
    "C44_without_H",
    "C44_last_column"
   ],
   "note": "Proved on the domain given in the statement; outside of it the code violates the property, witnessed by C44_full_refuted."
  },
  {
   "property": "C45",
   "status": "proved",
   "theorems": [
    "C45_full_refuted",
    "C45_lanczos"
   ],
   "note": "Proved on the domain given in the statement; outside of it the code violates the property, witnessed by C45_full_refuted."
  },
  {
   "property": "C46",
   "status": "proved",
   "theorems": [
    "C46_convergence"
   ],
   "note": ""
  },
  {
   "property": "C47",
   "status": "proved",
   "theorems": [
    "C47_krylovschur",
    "C47_unlocked",
    "C47_region_refuted"
   ],
   "note": "Proved on the domain given in the statement; outside of it the code violates the property, witnessed by C47_region_refuted."
  },
  {
   "property": "C48",
   "status": "proved",
   "theorems": [
    "C48_truncate",
    "C48_truncate_full_refuted"
   ],
   "note": "Proved on the domain given in the statement; outside of it the code violates the property, witnessed by C48_truncate_full_refuted."
  },
  {
   "property": "C49",
   "status": "proved",
   "theorems": [
    "C49_sort"
   ],
   "note": ""
  },
  {
   "property": "C50",
   "status": "proved",
   "theorems": [
    "C50_zero_value_refuted",
    "C50_cross"
   ],
   "note": "Proved on the domain given in the statement; outside of it the code violates the property, witnessed by C50_zero_value_refuted."
  },
  {
   "property": "C51",
   "status": "proved",
   "theorems": [
    "C51_zero_first_refuted",
    "C51_cyclic"
   ],
   "note": "Proved on the domain given in the statement; outside of it the code violates the property, witnessed by C51_zero_first_refuted."
  },
  {
   "property": "C52",
   "status": "proved",
   "theorems": [
    "C52_gsvd_cross",
    "C52_gsvd_cyclic"
   ],
   "note": ""
  },
  {
   "property": "C53",
   "status": "proved",
   "theorems": [
    "C53_hyperbolic",
    "C53_wide_refuted"
   ],
   "note": "Proved on the domain given in the statement; outside of it the code violates the property, witnessed by C53_wide_refuted."
  },
  {
   "property": "C54",
   "status": "proved",
   "theorems": [
    "C54_krylov",
    "C54_exact",
    "C54_error_refuted"
   ],
   "note": "Proved on the domain given in the statement; outside of it the code violates the property, witnessed by C54_error_refuted."
  },
  {
   "property": "C55",
   "status": "proved",
   "theorems": [
    "C55_operator",
    "C55_transpose_refuted"
   ],
   "note": "Proved on the domain given in the statement; outside of it the code violates the property, witnessed by C55_transpose_refuted."
  },
  {
   "property": "C56",
   "status": "proved",
   "theorems": [
    "C56_eigenpair",
    "C56_equations"
   ],
   "note": ""
  },
  {
   "property": "C57",
   "status": "proved",
   "theorems": [
    "C57_error",
    "C57_small_refuted"
   ],
   "note": "Proved on the domain given in the statement; outside of it the code violates the property, witnessed by C57_small_refuted."
  },
  {
   "property": "C58",
   "status": "proved",
   "theorems": [
    "C58_structured",
    "C58_left_hermitian_refuted",
    "C58_left_nest_refuted"
   ],
   "note": "Proved on the domain given in the statement; outside of it the code violates the property, witnessed by C58_left_hermitian_refuted, C58_left_nest_refuted."
  },
  {
   "property": "C59",
   "status": "proved",
   "theorems": [
    "C59_hamiltonian",
    "C59_values",
    "C59_repeated_refuted"
   ],
   "note": "Proved on the domain given in the statement; outside of it the code violates the property, witnessed by C59_repeated_refuted."
  },
  {
   "property": "C60",
   "status": "proved",
   "theorems": [
    "C60_discard"
   ],
   "note": ""
  },
  {
   "property": "C61",
   "status": "proved",
   "theorems": [
    "C61_dimensions",
    "C61_rejected"
   ],
   "note": ""
  },
  {
   "property": "C62",
   "status": "proved",
   "theorems": [
    "C62_svqb_complex_refuted",
    "C62_triangular",
    "C62_svqb"
   ],
   "note": "Proved on the domain given in the statement; outside of it the code violates the property, witnessed by C62_svqb_complex_refuted."
  },
  {
   "property": "C63",
   "status": "proved",
   "theorems": [
    "C63_hep",
    "C63_ghep",
    "C63_svd",
    "C63_gsvd",
    "C63_svd_rows_refuted"
   ],
   "note": "Proved on the domain given in the statement; outside of it the code violates the property, witnessed by C63_svd_rows_refuted."
  },
  {
   "property": "C64",
   "status": "proved",
   "theorems": [
    "C64_expokit",
    "C64_breakdown",
    "C64_last_step_refuted",
    "C64_rejected_refuted"
   ],
   "note": "Proved on the domain given in the statement; outside of it the code violates the property, witnessed by C64_last_step_refuted, C64_rejected_refuted."
  },
  {
   "property": "C65",
   "status": "proved",
   "theorems": [
    "C65_svd",
    "C65_pep",
    "C65_nep",
    "C65_nep_many_refuted",
    "C65_reuse_refuted"
   ],
   "note": "Proved on the domain given in the statement; outside of it the code violates the property, witnessed by C65_nep_many_refuted, C65_reuse_refuted."
  },
  {
   "property": "C66",
   "status": "proved",
   "theorems": [
    "C66_reach",
    "C66_call",
    "C66_k_refuted",
    "C66_locked_refuted"
   ],
   "note": "Proved on the domain given in the statement; outside of it the code violates the property, witnessed by C66_k_refuted, C66_locked_refuted."
  },
  {
   "property": "C67",
   "status": "proved",
   "theorems": [
    "C67_reuse",
    "C67_option_refuted",
    "C67_swapped_refuted"
   ],
   "note": "Proved on the domain given in the statement; outside of it the code violates the property, witnessed by C67_option_refuted, C67_swapped_refuted."
  },
  {
   "property": "C68",
   "status": "proved",
   "theorems": [
    "C68_reuse",
    "C68_option_refuted"
   ],
   "note": "Proved on the domain given in the statement; outside of it the code violates the property, witnessed by C68_option_refuted."
  }
 ]
}