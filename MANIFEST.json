{
 "claims": [
  {
   "property": "C01",
   "status": "proved",
   "theorems": [
    "C01_loi_union_and_normal"
   ],
   "note": ""
  },
  {
   "property": "C02",
   "status": "proved",
   "theorems": [
    "C02_loi_canonical",
    "C02_loi_permutation"
   ],
   "note": ""
  },
  {
   "property": "C03",
   "status": "proved",
   "theorems": [
    "C03_shift_right_is_projection",
    "C03_shift_right_smallest",
    "C03_shift_left_is_refinement",
    "C03_shift_round_trip"
   ],
   "note": ""
  },
  {
   "property": "C04",
   "status": "proved",
   "theorems": [
    "C04_even_odd_split",
    "C04_even_odd_coarse"
   ],
   "note": ""
  },
  {
   "property": "C05",
   "status": "partial",
   "theorems": [
    "C05_division_refuted",
    "C05_division_partial"
   ],
   "note": "The full statement is false of the code (C05_division_refuted); C05_division_partial characterises exactly the intervals for which it holds."
  },
  {
   "property": "C06",
   "status": "proved",
   "theorems": [
    "C06_array_holds_added_cells"
   ],
   "note": ""
  },
  {
   "property": "C07",
   "status": "proved",
   "theorems": [
    "C07_array_well_formed"
   ],
   "note": ""
  },
  {
   "property": "C08",
   "status": "proved",
   "theorems": [
    "C08_iteration_exact",
    "C08_for_each_cell_exact",
    "C08_for_each_cell_on_empty_refuted"
   ],
   "note": "Arrays without cells: for_each_interval is guarded, for_each_cell is not (C08_for_each_cell_on_empty_refuted)."
  },
  {
   "property": "C09",
   "status": "partial",
   "theorems": [
    "C09_iteration_with_empty_row_refuted"
   ],
   "note": "The claim that traversal stays exact when empty rows exist is false of the code (refuted theorem, with a witness); traversal without empty rows is C08."
  },
  {
   "property": "C10",
   "status": "proved",
   "theorems": [
    "C10_find_iff_present",
    "C10_find_is_visited_position",
    "C10_binary_search_is_linear"
   ],
   "note": ""
  },
  {
   "property": "C11",
   "status": "proved",
   "theorems": [
    "C11_update_index_bijective"
   ],
   "note": ""
  },
  {
   "property": "C12",
   "status": "proved",
   "theorems": [
    "C12_numbering_bijective"
   ],
   "note": ""
  },
  {
   "property": "C13",
   "status": "partial",
   "theorems": [
    "C13_decrement_undoes_increment_partial",
    "C13_round_trip_at_last_position_refuted"
   ],
   "note": "--(++it) = it is proved on every position but the last; on the last position it is false of the code (refuted theorem)."
  },
  {
   "property": "C14",
   "status": "proved",
   "theorems": [
    "C14_box_array"
   ],
   "note": ""
  },
  {
   "property": "C15",
   "status": "partial",
   "theorems": [
    "C15_cell_arrays_equal_iff_same_cells",
    "C15_equal_arrays_same_cells",
    "C15_same_cells_equal_refuted",
    "C15_same_cells_equal_partial",
    "C15_same_cells_equal_after_numbering"
   ],
   "note": "Same cells => equal is false in general (index fields are compared, refuted theorem); proved for plain intervals, after update_index, and for whole CellArrays; the converse holds without hypothesis."
  },
  {
   "property": "C16",
   "status": "proved",
   "theorems": [
    "C16_nb_cells",
    "C16_extents_tight"
   ],
   "note": ""
  },
  {
   "property": "C17",
   "status": "proved",
   "theorems": [
    "C17_one_level_boolean_algebra"
   ],
   "note": ""
  },
  {
   "property": "C18",
   "status": "proved",
   "theorems": [
    "C18_levels",
    "C18_inner_on_ignored"
   ],
   "note": ""
  },
  {
   "property": "C19",
   "status": "partial",
   "theorems": [
    "C19_translate_moves",
    "C19_translate_commutes",
    "C19_nested_translate_refuted",
    "C19_translate_back"
   ],
   "note": "Single translates, commutation with every expression and the inverse (via C22) are proved; translate(translate(a)) is false of the code from dimension 2 on (refuted theorem)."
  },
  {
   "property": "C20",
   "status": "proved",
   "theorems": [
    "C20_replay"
   ],
   "note": ""
  },
  {
   "property": "C21",
   "status": "proved",
   "theorems": [
    "C21_scan_terminates"
   ],
   "note": ""
  },
  {
   "property": "C22",
   "status": "proved",
   "theorems": [
    "C22_array_of_subset",
    "C22_materialise"
   ],
   "note": ""
  },
  {
   "property": "C23",
   "status": "partial",
   "theorems": [
    "C23_contraction",
    "C23_expand_is_diagonal_union",
    "C23_expand_dilation_refuted"
   ],
   "note": "contraction is proved; expand is proved to be the union of the diagonal translates, so the documented dilation is false of the code (refuted theorem)."
  },
  {
   "property": "C24",
   "status": "partial",
   "theorems": [
    "C24_projection_refuted"
   ],
   "note": "The documented property is false of the code: the refutation is the result."
  },
  {
   "property": "C25",
   "status": "proved",
   "theorems": [
    "C25_union"
   ],
   "note": "Proved for every level range: level l receives the ancestors of all finer leaves when min_level-1 <= l; levels below receive nothing."
  },
  {
   "property": "C26",
   "status": "proved",
   "theorems": [
    "C26_subdomain"
   ],
   "note": ""
  },
  {
   "property": "C27",
   "status": "proved",
   "theorems": [
    "C27_shared_numbering"
   ],
   "note": ""
  },
  {
   "property": "C28",
   "status": "partial",
   "theorems": [
    "C28_view_addresses_cells",
    "C28_check_complete",
    "C28_missing_start_undetected",
    "C28_unaligned_step_refuted"
   ],
   "note": "Addresses, distinctness and bounds are proved for all intervals whose cells exist. The bounds check is proved exact when the length is a multiple of the step; otherwise it accepts views that reach another cell (C28_unaligned_step_refuted), and a missing start is never detected."
  },
  {
   "property": "C29",
   "status": "proved",
   "theorems": [
    "C29_ghost_layer",
    "C29_uniform_numbering"
   ],
   "note": ""
  },
  {
   "property": "C30",
   "status": "proved",
   "theorems": [
    "C30_nested_loop",
    "C30_loop_of_subsets"
   ],
   "note": ""
  },
  {
   "property": "C31",
   "status": "proved",
   "theorems": [
    "C31_same_region_no_overlap",
    "C31_exact_leaves",
    "C31_inconsistent_refuted"
   ],
   "note": ""
  },
  {
   "property": "C32",
   "status": "proved",
   "theorems": [
    "C32_levels_within_bounds"
   ],
   "note": ""
  },
  {
   "property": "C33",
   "status": "proved",
   "theorems": [
    "C33_exact",
    "C33_groups_agree",
    "C33_idempotent",
    "C33_consistent",
    "C33_pass_then_adapt",
    "C33_unaligned_domain_refuted"
   ],
   "note": ""
  },
  {
   "property": "C34",
   "status": "proved",
   "theorems": [
    "C34_exact"
   ],
   "note": ""
  },
  {
   "property": "C35",
   "status": "proved",
   "theorems": [
    "C35_graduation"
   ],
   "note": ""
  },
  {
   "property": "C36",
   "status": "proved",
   "theorems": [
    "C36_projection_is_mean",
    "C36_projection_of_prediction"
   ],
   "note": ""
  },
  {
   "property": "C37",
   "status": "proved",
   "theorems": [
    "C37_exact_on_polynomials",
    "C37_degree_is_sharp",
    "C37_interp_coeffs_agree"
   ],
   "note": ""
  },
  {
   "property": "C38",
   "status": "partial",
   "theorems": [
    "C38_order1_deviation",
    "C38_tensor_exactness_refuted",
    "C38_cross_term_inner_start",
    "C38_sums_partial"
   ],
   "note": "The documented tensor-product exactness is false of the code (wrong sign of the pair cross terms; inner sums start too late from order 2 on): refuted theorem plus exact deviation for order 1; exactness on sums of univariate polynomials is proved (C38_sums_partial)."
  },
  {
   "property": "C39",
   "status": "partial",
   "theorems": [
    "C39_level_based_is_cellwise",
    "C39_finer_is_cellwise",
    "C39_soa_refuted"
   ],
   "note": "Proved for scalar fields and any interval; for multi-component SOA fields in dimension 1 (and 3) it is false of the code when a bound is odd (C39_soa_refuted)."
  },
  {
   "property": "C40",
   "status": "proved",
   "theorems": [
    "C40_values",
    "C40_integral"
   ],
   "note": ""
  },
  {
   "property": "C41",
   "status": "proved",
   "theorems": [
    "C41_parallel_for_each_cell",
    "C41_parallel_for_each_meshinterval"
   ],
   "note": ""
  },
  {
   "property": "C42",
   "status": "partial",
   "theorems": [
    "C42_ghost_exchange",
    "C42_all_levels",
    "C42_unique_owner",
    "C42_tags_replaced",
    "C42_tags_accumulated",
    "C42_mesh_copies",
    "C42_components_refuted",
    "C42_shared_cells_swap",
    "C42_agreement_refuted",
    "C42_neighbourhood",
    "C42_copies_up_to_date"
   ],
   "note": "Proved for scalar fields, tags and copies of the mesh, for any number of ranks, schedule and buffering. False of the code for fields of several components (C42_components_refuted), and cells meeting two subdomains are swapped instead of agreed on (C42_agreement_refuted)."
  },
  {
   "property": "C43",
   "status": "partial",
   "theorems": [
    "C43_at_most_one_rank_partial",
    "C43_all_cells_iff",
    "C43_refuted"
   ],
   "note": "False of the code (C43_refuted): the remainder of the division, or everything, is given to no rank. Proved: no cell goes to two ranks, and the exact condition for no cell being lost."
  },
  {
   "property": "C44",
   "status": "proved",
   "theorems": [
    "C44_stencil_cells",
    "C44_without_gap_condition_refuted"
   ],
   "note": "Also refuted without the hypothesis that the row has no gap between origin and neighbour."
  },
  {
   "property": "C45",
   "status": "partial",
   "theorems": [
    "C45_coarse_is_parent_partial",
    "C45_odd_start_refuted"
   ],
   "note": "Proved for intervals with even start or of one cell; false of the code for longer intervals with odd start (refuted theorem)."
  },
  {
   "property": "C46",
   "status": "proved",
   "theorems": [
    "C46_rotation",
    "C46_no_collapse"
   ],
   "note": ""
  },
  {
   "property": "C47",
   "status": "proved",
   "theorems": [
    "C47_interior_interfaces",
    "C47_all_directions",
    "C47_ungraded_refuted",
    "C47_unaligned_refuted"
   ],
   "note": ""
  },
  {
   "property": "C48",
   "status": "partial",
   "theorems": [
    "C48_what_is_restored_partial",
    "C48_restore_refuted",
    "C48_swap_partial",
    "C48_swap_refuted"
   ],
   "note": "False of the code (C48_restore_refuted, C48_swap_refuted): max_level, periodicity, origin and scaling factor are not serialised, swap forgets the periodicity. Proved: exactly what is restored and exchanged."
  },
  {
   "property": "C49",
   "status": "partial",
   "theorems": [
    "C49_level_range_tight",
    "C49_for_each_interval_exact",
    "C49_iterator_exact_partial",
    "C49_iterator_with_empty_level_refuted"
   ],
   "note": "begin()/end() iteration is proved when no empty level lies between two non-empty ones and is false of the code otherwise (refuted theorem); level bounds and for_each_interval hold without restriction."
  },
  {
   "property": "C50",
   "status": "proved",
   "theorems": [
    "C50_containing_cell",
    "C50_children_tile",
    "C50_overlap",
    "C50_shared_faces",
    "C50_centers",
    "C50_get_cell"
   ],
   "note": ""
  },
  {
   "property": "C51",
   "status": "proved",
   "theorems": [
    "C51_domain_given",
    "C51_domain_fitted"
   ],
   "note": ""
  },
  {
   "property": "C52",
   "status": "proved",
   "theorems": [
    "C52_boundary_direction",
    "C52_both_directions",
    "C52_faces",
    "C52_unaligned_refuted"
   ],
   "note": ""
  },
  {
   "property": "C53",
   "status": "proved",
   "theorems": [
    "C53_balance",
    "C53_conservation",
    "C53_free_stream"
   ],
   "note": ""
  },
  {
   "property": "C54",
   "status": "proved",
   "theorems": [
    "C54_contents",
    "C54_leaf_stencils",
    "C54_numbering",
    "C54_projection_closed",
    "C54_prediction_stencils",
    "C54_wide_prediction_refuted"
   ],
   "note": ""
  },
  {
   "property": "C55",
   "status": "proved",
   "theorems": [
    "C55_update",
    "C55_average",
    "C55_determined"
   ],
   "note": ""
  },
  {
   "property": "C56",
   "status": "proved",
   "theorems": [
    "C56_dirichlet",
    "C56_neumann",
    "C56_extrapolation",
    "C56_degrees_sharp"
   ],
   "note": ""
  },
  {
   "property": "C57",
   "status": "proved",
   "theorems": [
    "C57_only_outside",
    "C57_fills",
    "C57_update",
    "C57_determined",
    "C57_everywhere",
    "C57_conditions",
    "C57_edges_refuted",
    "C57_assertion_refuted"
   ],
   "note": ""
  },
  {
   "property": "C58",
   "status": "proved",
   "theorems": [
    "C58_flags",
    "C58_new_mesh",
    "C58_width_refuted",
    "C58_storage_refuted"
   ],
   "note": ""
  },
  {
   "property": "C59",
   "status": "proved",
   "theorems": [
    "C59_details",
    "C59_details_cancel",
    "C59_first_child_suffices",
    "C59_tags",
    "C59_new_mesh",
    "C59_level_zero_refuted",
    "C59_shift_refuted"
   ],
   "note": ""
  },
  {
   "property": "C60",
   "status": "proved",
   "theorems": [
    "C60_iteration",
    "C60_adapt",
    "C60_coarsened",
    "C60_refined",
    "C60_conditions"
   ],
   "note": ""
  },
  {
   "property": "C61",
   "status": "proved",
   "theorems": [
    "C61_exact",
    "C61_polynomials",
    "C61_extends",
    "C61_constant",
    "C61_affine",
    "C61_corner_refuted"
   ],
   "note": ""
  },
  {
   "property": "C62",
   "status": "proved",
   "theorems": [
    "C62_iteration",
    "C62_adapt",
    "C62_conditions",
    "C62_reads",
    "C62_unchanged",
    "C62_width_refuted"
   ],
   "note": ""
  },
  {
   "property": "C63",
   "status": "proved",
   "theorems": [
    "C63_closure",
    "C63_new_mesh",
    "C63_width_refuted"
   ],
   "note": ""
  },
  {
   "property": "C64",
   "status": "proved",
   "theorems": [
    "C64_contents",
    "C64_closed",
    "C64_graduation",
    "C64_level_zero_refuted"
   ],
   "note": ""
  },
  {
   "property": "C65",
   "status": "proved",
   "theorems": [
    "C65_update",
    "C65_average",
    "C65_determined",
    "C65_only_outside",
    "C65_fills",
    "C65_outer",
    "C65_star_refuted",
    "C65_corners_refuted"
   ],
   "note": ""
  },
  {
   "property": "C66",
   "status": "proved",
   "theorems": [
    "C66_step",
    "C66_unchanged",
    "C66_loop",
    "C66_ghost_tags",
    "C66_determined",
    "C66_conditions",
    "C66_band",
    "C66_band_marking",
    "C66_band_ended",
    "C66_slopes",
    "C66_slopes_marking",
    "C66_slopes_ended",
    "C66_star_refuted",
    "C66_endless_refuted"
   ],
   "note": ""
  },
  {
   "property": "C67",
   "status": "proved",
   "theorems": [
    "C67_balance",
    "C67_conservation",
    "C67_two_point",
    "C67_advection",
    "C67_burgers",
    "C67_amr_mesh",
    "C67_mr_mesh",
    "C67_without_correction_refuted",
    "C67_coarse_burgers_refuted",
    "C67_uniform_velocity",
    "C67_variable_velocity_refuted"
   ],
   "note": ""
  },
  {
   "property": "C68",
   "status": "proved",
   "theorems": [
    "C68_amr",
    "C68_burgers",
    "C68_mr",
    "C68_mr_ends",
    "C68_amr_determined",
    "C68_mr_determined",
    "C68_fluxes"
   ],
   "note": ""
  },
  {
   "property": "C69",
   "status": "proved",
   "theorems": [
    "C69_copies",
    "C69_inside",
    "C69_tags",
    "C69_narrow_refuted"
   ],
   "note": ""
  },
  {
   "property": "C70",
   "status": "proved",
   "theorems": [
    "C70_contents",
    "C70_no_direction",
    "C70_contains",
    "C70_only",
    "C70_images_stored",
    "C70_images_uniform"
   ],
   "note": ""
  },
  {
   "property": "C71",
   "status": "proved",
   "theorems": [
    "C71_update",
    "C71_determined",
    "C71_no_condition",
    "C71_mixed_refuted"
   ],
   "note": ""
  },
  {
   "property": "C72",
   "status": "proved",
   "theorems": [
    "C72_memory",
    "C72_prediction",
    "C72_exact",
    "C72_mean",
    "C72_reads",
    "C72_reads_sharp",
    "C72_operator",
    "C72_operator_refuted"
   ],
   "note": ""
  },
  {
   "property": "C73",
   "status": "proved",
   "theorems": [
    "C73_portion_block",
    "C73_other_levels_refuted",
    "C73_refuted"
   ],
   "note": ""
  },
  {
   "property": "C74",
   "status": "proved",
   "theorems": [
    "C74_values",
    "C74_exact",
    "C74_mean",
    "C74_conserved",
    "C74_margin_refuted"
   ],
   "note": ""
  },
  {
   "property": "C75",
   "status": "proved",
   "theorems": [
    "C75_values",
    "C75_projection",
    "C75_conserved",
    "C75_exact",
    "C75_margin_refuted"
   ],
   "note": ""
  },
  {
   "property": "C76",
   "status": "proved",
   "theorems": [
    "C76_balance",
    "C76_conservation",
    "C76_free_stream",
    "C76_linear",
    "C76_parallel",
    "C76_operators",
    "C76_constants",
    "C76_upwind_vector_refuted",
    "C76_unaligned_refuted"
   ],
   "note": ""
  },
  {
   "property": "C77",
   "status": "proved",
   "theorems": [
    "C77_recursion",
    "C77_ghosts_determined"
   ],
   "note": ""
  },
  {
   "property": "C78",
   "status": "proved",
   "theorems": [
    "C78_indices",
    "C78_two_cells",
    "C78_scheme",
    "C78_matrix",
    "C78_solution",
    "C78_boundary_ghosts_refuted",
    "C78_boundary_calls",
    "C78_problem"
   ],
   "note": "For the schemes of the quantifier: the stencils of the boundary faces contain no eliminated ghost (always with two cells, C78_two_cells); with wider stencils it can be false (C78_boundary_ghosts_refuted)."
  },
  {
   "property": "C79",
   "status": "proved",
   "theorems": [
    "C79_preallocation",
    "C79_nonzeros",
    "C79_problem"
   ],
   "note": ""
  },
  {
   "property": "C80",
   "status": "partial",
   "theorems": [
    "C80_scale",
    "C80_minus",
    "C80_plus",
    "C80_operator_sum",
    "C80_largest",
    "C80_matrix",
    "C80_solution",
    "C80_plus_refuted"
   ],
   "note": "s1 + s2 with the same configuration but different stencils is false of the code (C80_plus_refuted: the stencil of s1 is used for the coefficients of s2); C80_plus is proved for the same stencils. All the rest is proved as stated, with the hypotheses of C78 for the matrix."
  },
  {
   "property": "C81",
   "status": "proved",
   "theorems": [
    "C81_preallocation",
    "C81_line",
    "C81_nested",
    "C81_line_stencils",
    "C81_sizes_refuted"
   ],
   "note": "For linear homogeneous flux-based schemes with nested stencils (the default line stencils of all sizes are: C81_nested) and every leaf with a face; C81_sizes_refuted shows that the largest size alone is not sufficient."
  },
  {
   "property": "C82",
   "status": "proved",
   "theorems": [
    "C82_sizes",
    "C82_positions",
    "C82_tiling",
    "C82_diagonal",
    "C82_rectangular_refuted"
   ],
   "note": "Sizes and positions of the blocks. C82_rectangular_refuted: block matrices that are not square get the wrong size."
  },
  {
   "property": "C83",
   "status": "proved",
   "theorems": [
    "C83_element",
    "C83_connectivity",
    "C83_shared"
   ],
   "note": ""
  },
  {
   "property": "C84",
   "status": "proved",
   "theorems": [
    "C84_quadrature",
    "C84_make_field",
    "C84_midpoint",
    "C84_degree_refuted"
   ],
   "note": "The constants are the decimals of the file as exact rationals; the rounding of the floating-point operations is not modelled. C84_degree_refuted: no rule from degree 40 on."
  },
  {
   "property": "C85",
   "status": "proved",
   "theorems": [
    "C85_unknowns",
    "C85_rhs",
    "C85_results",
    "C85_indices",
    "C85_indices_refuted"
   ],
   "note": "Square block matrices; C85_indices_refuted is the exception named in the statement."
  },
  {
   "property": "C86",
   "status": "partial",
   "theorems": [
    "C86_overleaves",
    "C86_step_refuted",
    "C86_even_odd_refuted",
    "C86_mr_refuted"
   ],
   "note": "The first sentence is proved for MROMesh::exists when the step divides the size (C86_overleaves) and is false of the code otherwise and for MRMesh::exists (refuted theorems, for all such intervals)."
  }
 ]
}
