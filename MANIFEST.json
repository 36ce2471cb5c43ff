{
 "claims": [
  {
   "property": "C01",
   "status": "proved",
   "theorems": [
    "C01_apply_permutation_gathers"
   ],
   "note": "All lengths, permutations and element types."
  },
  {
   "property": "C02",
   "status": "proved",
   "theorems": [
    "C02_sort_permutation_sorts",
    "C02_sizes"
   ],
   "note": "std::sort enters as any function returning a sorted permutation."
  },
  {
   "property": "C03",
   "status": "proved",
   "theorems": [
    "C03_apply_permutation_terminates_iff"
   ],
   "note": "Both directions: termination iff bijection."
  },
  {
   "property": "C04",
   "status": "proved",
   "theorems": [
    "C04_block_covers_owned_cells"
   ],
   "note": "Any finite mesh, neighbour relation and ownership."
  },
  {
   "property": "C05",
   "status": "proved",
   "theorems": [
    "C05_block_tiles_box"
   ],
   "note": "Any numbering growing along the axes, dimensions 2 and 3."
  },
  {
   "property": "C06",
   "status": "proved",
   "theorems": [
    "C06_block_ids_nonempty",
    "C06_block_ids_nonempty_refuted"
   ],
   "note": "Proved under monotone numbering; the refuted theorem gives a mesh where an id is empty."
  },
  {
   "property": "C07",
   "status": "proved",
   "theorems": [
    "C07_partitioner_renumbering"
   ],
   "note": "The external partitioner is an arbitrary function."
  },
  {
   "property": "C08",
   "status": "proved",
   "theorems": [
    "C08_boundary_agglomerates_exact"
   ],
   "note": "Any vertex connectivity."
  },
  {
   "property": "C09",
   "status": "proved",
   "theorems": [
    "C09_patch_by_id_exact",
    "C09_patch_by_index_exact",
    "C09_boundary_patches_stay_in_mesh"
   ],
   "note": "Includes the out-of-mesh behaviour of non-monotone lists."
  },
  {
   "property": "C10",
   "status": "proved",
   "theorems": [
    "C10_dof_index_map_correct",
    "C10_unknown_patch_cell_throws"
   ],
   "note": "Uniqueness of the cell correspondence is a hypothesis, as deal.II guarantees it."
  },
  {
   "property": "C11",
   "status": "proved",
   "theorems": [
    "C11_restriction_rows",
    "C11_entry"
   ],
   "note": "All ranks together; assembly succeeds in debug and release builds."
  },
  {
   "property": "C12",
   "status": "proved",
   "theorems": [
    "C12_partition_of_unity"
   ],
   "note": "More general than stated: any vector locally in the span of the eigenvectors."
  },
  {
   "property": "C13",
   "status": "proved",
   "theorems": [
    "C13_row_ranges",
    "C13_ranks_write_own_rows"
   ],
   "note": "Any number of ranks and counts; ranks write only into their own rows."
  },
  {
   "property": "C14",
   "status": "proved",
   "theorems": [
    "C14_split",
    "C14_split_replacing",
    "C14_replacing_duplicates_refuted"
   ],
   "note": "Both readings of set; the refuted theorem covers the replacing one with duplicates."
  },
  {
   "property": "C15",
   "status": "proved",
   "theorems": [
    "C15_fast_ap",
    "C15_run_exists",
    "C15_isolated_agglomerate_refuted",
    "C15_uneven_counts_refuted"
   ],
   "note": "End to end from compute_restriction and build_boundary_agglomerates; two refuted theorems show the conditions are needed."
  },
  {
   "property": "C16",
   "status": "proved",
   "theorems": [
    "C16_worker",
    "C16_any_schedule",
    "C16_own_rows",
    "C16_one_object",
    "C16_stale_copy_refuted"
   ],
   "note": "Every schedule of the WorkStream transition system; the exact result with one copy-data object."
  },
  {
   "property": "C17",
   "status": "proved",
   "theorems": [
    "C17_extract_row",
    "C17_stored_entries",
    "C17_product_within_threshold",
    "C17_refines_global_form",
    "C17_galerkin_error",
    "C17_galerkin_symmetry_refuted"
   ],
   "note": "Distributed code with per-rank index sets and ghosts; it also refines the global form used in the hierarchy model; refuted: symmetry of the coarse matrix."
  },
  {
   "property": "C18",
   "status": "proved",
   "theorems": [
    "C18_vmult_ignores_x"
   ],
   "note": "No assumption on the components at all."
  },
  {
   "property": "C19",
   "status": "proved",
   "theorems": [
    "C19_vmult_linear"
   ],
   "note": "Any depth."
  },
  {
   "property": "C20",
   "status": "proved",
   "theorems": [
    "C20_solution_is_fixed_point"
   ],
   "note": "Any depth of at least two levels."
  },
  {
   "property": "C21",
   "status": "proved",
   "theorems": [
    "C21_vmult_symmetric",
    "C21_gauss_seidel_refuted"
   ],
   "note": "Any depth; the refuted theorem shows that the smoother gauss-seidel breaks symmetry."
  },
  {
   "property": "C22",
   "status": "proved",
   "theorems": [
    "C22_coarse_operators_galerkin"
   ],
   "note": "For hierarchies of assembled matrices built without fast_ap."
  },
  {
   "property": "C23",
   "status": "proved",
   "theorems": [
    "C23_two_grid_error"
   ],
   "note": "Exact arithmetic."
  },
  {
   "property": "C24",
   "status": "proved",
   "theorems": [
    "C24_levels_populated",
    "C24_levels_hold_helpers_objects",
    "C24_construction_succeeds"
   ],
   "note": "Slots, contents, and the converse (construction succeeds)."
  },
  {
   "property": "C25",
   "status": "proved",
   "theorems": [
    "C25_construction_sections",
    "C25_construction_independent_of_timer",
    "C25_cycle_sections",
    "C25_deep_cycle_with_checked_timer_refuted"
   ],
   "note": "Balanced on success, what stays open on failure, independence of the result; refuted for deep cycles with a checked timer."
  },
  {
   "property": "C26",
   "status": "proved",
   "theorems": [
    "C26_params_untouched"
   ],
   "note": "Exact effect on every path of the tree."
  },
  {
   "property": "C27",
   "status": "proved",
   "theorems": [
    "C27_fitting_sizes_suffice",
    "C27_host_helpers_three_levels_refuted"
   ],
   "note": "Sufficient condition, and refutation for the host helpers with three or more levels."
  },
  {
   "property": "C28",
   "status": "proved",
   "theorems": [
    "C28_smoother_step",
    "C28_smoother_step_linear",
    "C28_symmetric_gauss_seidel_good",
    "C28_gauss_seidel_relaxes",
    "C28_jacobi_symmetric",
    "C28_jacobi_reduces_refuted"
   ],
   "note": "External preconditioners are modelled by their documented action."
  },
  {
   "property": "C29",
   "status": "proved",
   "theorems": [
    "C29_schedule",
    "C29_every_iteration",
    "C29_gap"
   ],
   "note": "Any operator; the list of check iterations is recorded by the model."
  },
  {
   "property": "C30",
   "status": "proved",
   "theorems": [
    "C30_filter",
    "C30_pairs"
   ],
   "note": "Filter specified by removed/close in S_Lanczos.v; LAPACKE_dstev enters through its contract."
  },
  {
   "property": "C31",
   "status": "proved",
   "theorems": [
    "C31_recurrence"
   ],
   "note": "Operator symmetric on any subspace, which covers the deflated operator; exact arithmetic with a partial square root."
  },
  {
   "property": "C32",
   "status": "proved",
   "theorems": [
    "C32_ritz_pairs",
    "C32_unconverged_refuted"
   ],
   "note": "Residual identity and bound; refuted: pairs returned without convergence."
  },
  {
   "property": "C33",
   "status": "proved",
   "theorems": [
    "C33_add_orthonormal",
    "C33_add_succeeds",
    "C33_dependent_fails",
    "C33_calls",
    "C33_deflate",
    "C33_operator",
    "C33_kernel_refuted"
   ],
   "note": "Any sequence of calls; refuted: kernel without invariance. One example uses the real numbers of the standard library."
  },
  {
   "property": "C34",
   "status": "proved",
   "theorems": [
    "C34_result",
    "C34_smallest_refuted"
   ],
   "note": "Number, order and origin of the pairs; refuted: smallest of the pairs found."
  },
  {
   "property": "C35",
   "status": "proved",
   "theorems": [
    "C35_evaluator_guess",
    "C35_evaluator_support",
    "C35_perturbation",
    "C35_lobpcg_fresh",
    "C35_lobpcg_reuse",
    "C35_lobpcg_short_refuted",
    "C35_start_vectors_vanish"
   ],
   "note": "Random numbers are an arbitrary sequence; refuted: fewer vectors kept than requested."
  },
  {
   "property": "C36",
   "status": "proved",
   "theorems": [
    "C36_residuals",
    "C36_result",
    "C36_marker",
    "C36_lapack",
    "C36_marker_refuted"
   ],
   "note": "LAPACK enters through its contract; refuted: the marker 200 as smallest eigenvalue."
  },
  {
   "property": "C37",
   "status": "proved",
   "theorems": [
    "C37_ptree2plist_correct",
    "C37_ptree2plist_total",
    "C37_ptree2plist_escaping_refuted",
    "C37_int_iff",
    "C37_bool_words",
    "C37_bool_iff"
   ],
   "note": "Whole path through the XML text; the refuted theorem shows the missing escaping."
  },
  {
   "property": "C38",
   "status": "proved",
   "theorems": [
    "C38_host_smoother",
    "C38_matrix_free_smoother",
    "C38_cuda_smoother",
    "C38_host_solver",
    "C38_cuda_solver_at_apply",
    "C38_cuda_solver_constructor_refuted",
    "C38_evaluator",
    "C38_eigensolver_known",
    "C38_eigensolver_unknown_refuted",
    "C38_eigensolver_matrix_free",
    "C38_partitioner"
   ],
   "note": "Dispatch tables in S_Host.v; exceptions stated as refuted theorems."
  },
  {
   "property": "C39",
   "status": "proved",
   "theorems": [
    "C39_sorted_and_complete",
    "C39_rectangular_in_bounds",
    "C39_overrun_refuted"
   ],
   "note": "Memory behind the array is a parameter: any value, undefined, or undefined only one past the end. Refuted: in-bounds access for square matrices."
  },
  {
   "property": "C40",
   "status": "proved",
   "theorems": [
    "C40_trilinos_round_trip",
    "C40_device_round_trip",
    "C40_epetra_agrees",
    "C40_empty_rank_refuted"
   ],
   "note": "Trilinos' insertion and compression enter through a contract that is satisfied by an example implementation; refuted: ranks without entries."
  },
  {
   "property": "C41",
   "status": "proved",
   "theorems": [
    "C41_applications",
    "C41_first_transpose",
    "C41_cached_transpose",
    "C41_history",
    "C41_second_transpose_refuted"
   ],
   "note": "Libraries enter through contracts that example libraries satisfy; all histories by induction over calls; refuted: a second transpose() changes the operator."
  },
  {
   "property": "C42",
   "status": "proved",
   "theorems": [
    "C42_never_dead",
    "C42_values",
    "C42_released",
    "C42_move_assign_refuted",
    "C42_self_move_refuted",
    "C42_copy_empty_refuted",
    "C42_multiply_in_place_refuted"
   ],
   "note": "All programs by induction with an ownership invariant; four refuted theorems for the cases excluded."
  },
  {
   "property": "C43",
   "status": "proved",
   "theorems": [
    "C43_leak_per_product"
   ],
   "note": "Exact count over any number of products."
  },
  {
   "property": "C44",
   "status": "proved",
   "theorems": [
    "C44_local_count"
   ],
   "note": "Over all programs; the reported count against the global one."
  },
  {
   "property": "C45",
   "status": "proved",
   "theorems": [
    "C45_extracted_values",
    "C45_serial_jacobi_step",
    "C45_offset_refuted"
   ],
   "note": "All thread orders and buffer contents; refuted: ranks not starting at row 0."
  },
  {
   "property": "C46",
   "status": "proved",
   "theorems": [
    "C46_distributed_product"
   ],
   "note": "All ranks together; cuSPARSE csrmv is the row-wise sum."
  },
  {
   "property": "C47",
   "status": "proved",
   "theorems": [
    "C47_symmetric_renumbering"
   ],
   "note": "std::sort enters through its contract; the order of unordered_map iterations is irrelevant to the result."
  },
  {
   "property": "C48",
   "status": "proved",
   "theorems": [
    "C48_device_vectors",
    "C48_host_vectors",
    "C48_one_rank_keeps_rhs",
    "C48_rhs_changed_refuted"
   ],
   "note": "AMGX enters through a contract on the halo exchange and the solved system that an example solver satisfies; refuted: b unchanged on two ranks."
  },
  {
   "property": "C49",
   "status": "proved",
   "theorems": [
    "C49_handles",
    "C49_copy_refuted",
    "C49_early_finalize_refuted"
   ],
   "note": "Transition system over all histories; refuted for copies and for the early finalisation."
  },
  {
   "property": "C50",
   "status": "proved",
   "theorems": [
    "C50_times_mat_add",
    "C50_add",
    "C50_add_into_second",
    "C50_scale",
    "C50_inner",
    "C50_set_block",
    "C50_init",
    "C50_apply",
    "C50_times_aliased_refuted",
    "C50_add_into_second_refuted",
    "C50_scale_repeated_refuted",
    "C50_set_block_overtaken_refuted"
   ],
   "note": "All operations on a store of shared vectors; exact sharing conditions, with wrong results outside them."
  },
  {
   "property": "C51",
   "status": "proved",
   "theorems": [
    "C51_maps_line_up",
    "C51_out_of_bounds_refuted",
    "C51_misaligned_refuted"
   ],
   "note": "All ranks together; two refuted theorems for patterns that are not symmetric."
  },
  {
   "property": "C52",
   "status": "proved",
   "theorems": [
    "C52_pvtu_record_correct_iff",
    "C52_pvtu_record_content"
   ],
   "note": "Right iff one rank; content given for every number of ranks."
  },
  {
   "property": "C53",
   "status": "proved",
   "theorems": [
    "C53_extract_in_bounds"
   ],
   "note": "Both directions; the number of values is that of the external solution."
  },
  {
   "property": "C54",
   "status": "proved",
   "theorems": [
    "C54_schedule_independent",
    "C54_guess_refuted"
   ],
   "note": "WorkStream modelled as a transition system with reused scratch and copy-data objects; refuted with an initial guess."
  },
  {
   "property": "C55",
   "status": "proved",
   "theorems": [
    "C55_second_block_agglomeration_is_empty"
   ],
   "note": "Any mesh."
  },
  {
   "property": "C56",
   "status": "proved",
   "theorems": [
    "C56_ml_single_level_loses_defaults"
   ],
   "note": "Value of the list handed to ML."
  },
  {
   "property": "C57",
   "status": "proved",
   "theorems": [
    "C57_spd_preconditioner",
    "C57_default_host_configuration"
   ],
   "note": "General helpers at any depth, and the default host configuration on one or two levels."
  },
  {
   "property": "C58",
   "status": "proved",
   "theorems": [
    "C58_vmult_is_textbook_vcycle"
   ],
   "note": "Any depth."
  },
  {
   "property": "C59",
   "status": "proved",
   "theorems": [
    "C59_cycle_never_increases_energy"
   ],
   "note": "Semidefinite operators included."
  },
  {
   "property": "C60",
   "status": "proved",
   "theorems": [
    "C60_self_check",
    "C60_no_eigenvectors_refuted",
    "C60_run"
   ],
   "note": "Tolerance is a parameter; refuted for an agglomerate without eigenvectors."
  },
  {
   "property": "C61",
   "status": "proved",
   "theorems": [
    "C61_full_row_rank",
    "C61_shared_patches_refuted"
   ],
   "note": "Condition on private dofs; refuted without them."
  },
  {
   "property": "C62",
   "status": "proved",
   "theorems": [
    "C62_orthonormal"
   ],
   "note": "Follows the deflation through all cycles."
  },
  {
   "property": "C63",
   "status": "proved",
   "theorems": [
    "C63_too_few_pairs",
    "C63_too_few_pairs_refuted"
   ],
   "note": "Contract-level theorem and a full run that ends in an out-of-range read."
  },
  {
   "property": "C64",
   "status": "proved",
   "theorems": [
    "C64_small_invariant_subspace",
    "C64_more_pairs_than_unknowns"
   ],
   "note": "Any invariant subspace given by a spanning list."
  },
  {
   "property": "C65",
   "status": "proved",
   "theorems": [
    "C65_reads_in_bounds",
    "C65_large_entries_refuted"
   ],
   "note": "LAPACK enters through its contract; the refutation is a theorem about a class of matrices."
  },
  {
   "property": "C66",
   "status": "proved",
   "theorems": [
    "C66_one_value_per_vector",
    "C66_aligned",
    "C66_short_solution_refuted"
   ],
   "note": "Refuted for release builds with an external solver that finds too few vectors."
  },
  {
   "property": "C67",
   "status": "proved",
   "theorems": [
    "C67_lanczos"
   ],
   "note": "Uses the deflated-operator analysis within the subspace of vectors that vanish at constrained dofs; residual bound grows with the cycles."
  },
  {
   "property": "C68",
   "status": "proved",
   "theorems": [
    "C68_one_rank_operator_kept",
    "C68_several_ranks_refuted"
   ],
   "note": "Preservation on one rank for all matrices; refuted on two."
  },
  {
   "property": "C69",
   "status": "proved",
   "theorems": [
    "C69_multiply",
    "C69_multiply_value",
    "C69_multiply_transpose",
    "C69_multiply_transpose_not_ready",
    "C69_multiply_transpose_refuted"
   ],
   "note": "One rank and several; refuted for multiply_transpose on several ranks."
  },
  {
   "property": "C70",
   "status": "proved",
   "theorems": [
    "C70_galerkin",
    "C70_galerkin_value"
   ],
   "note": "Corollary of the operator semantics on any number of ranks."
  },
  {
   "property": "C71",
   "status": "proved",
   "theorems": [
    "C71_views",
    "C71_copies",
    "C71_families"
   ],
   "note": "Over all programs, by an invariant that separates families of multivectors."
  },
  {
   "property": "C72",
   "status": "proved",
   "theorems": [
    "C72_random",
    "C72_random_repeats"
   ],
   "note": "The stream of numbers is a parameter."
  },
  {
   "property": "C73",
   "status": "proved",
   "theorems": [
    "C73_direct_solve",
    "C73_host_vectors",
    "C73_singular_refused",
    "C73_unknown_name",
    "C73_several_ranks_refuted"
   ],
   "note": "cuSOLVER enters through contracts that an exact solver written in Coq satisfies; refuted on several ranks."
  },
  {
   "property": "C74",
   "status": "proved",
   "theorems": [
    "C74_agglomerates",
    "C74_restrictor",
    "C74_failure_noticed",
    "C74_too_many_eigenvectors_refuted",
    "C74_release_failure_refuted"
   ],
   "note": "cuSOLVER and the compression of Trilinos enter through contracts that examples satisfy; refuted for agglomerates smaller than the number of eigenvectors and for release builds when cuSOLVER fails."
  },
  {
   "property": "C75",
   "status": "proved",
   "theorems": [
    "C75_memory_left",
    "C75_leak_refuted"
   ],
   "note": "Exact difference of the memory before and after; the absence of leaks is refuted."
  },
  {
   "property": "C76",
   "status": "proved",
   "theorems": [
    "C76_cycle"
   ],
   "note": "All levels by induction; the coarse solver is any that acts linearly."
  },
  {
   "property": "C77",
   "status": "proved",
   "theorems": [
    "C77_two_levels",
    "C77_one_level",
    "C77_three_levels_refuted",
    "C77_unknown_smoother",
    "C77_fast_ap",
    "C77_several_ranks_refuted"
   ],
   "note": "One and two levels on one process; refuted for three levels and for several processes; unknown smoothers and fast_ap are rejected."
  },
  {
   "property": "C78",
   "status": "proved",
   "theorems": [
    "C78_spd"
   ],
   "note": "Corollary of C76, C77 and the theory of C29 to C33 applied to Jacobi's method."
  },
  {
   "property": "C79",
   "status": "proved",
   "theorems": [
    "C79_spectral_two_grid"
   ],
   "note": "Composition of C74, C75 and C77."
  },
  {
   "property": "C80",
   "status": "proved",
   "theorems": [
    "C80_product",
    "C80_galerkin",
    "C80_empty_rank_refuted",
    "C80_apply",
    "C80_transposed_refuted"
   ],
   "note": "The evaluator is any that computes A x; refuted for a rank without entries above the threshold."
  },
  {
   "property": "C81",
   "status": "proved",
   "theorems": [
    "C81_error",
    "C81_lanczos",
    "C81_inexact_refuted"
   ],
   "note": "Proved for arbitrary pairs, and for those of the modelled Lanczos solver; equality with A R^T refuted for a successful Lanczos run."
  },
  {
   "property": "C82",
   "status": "proved",
   "theorems": [
    "C82_fast_ap_same",
    "C82_runs_exist",
    "C82_from_mesh_to_preconditioner"
   ],
   "note": "Composition of C04, C07, C08, C11, C15, C36, C54, C57 and C60 through one model of build_restrictor; full row rank of R is assumed (see C61). Outside the condition on isolated agglomerates C15 is refuted."
  },
  {
   "property": "C83",
   "status": "proved",
   "theorems": [
    "C83_chebyshev_reduces_error",
    "C83_max_eigenvalue_ignored",
    "C83_negative_degree_refuted",
    "C83_max_eigenvalue_refuted"
   ],
   "note": "deal.II's PreconditionChebyshev is modelled by its documented algorithm; its eigenvalue estimate is an arbitrary function. Protection by max_eigenvalue is refuted."
  },
  {
   "property": "C84",
   "status": "proved",
   "theorems": [
    "C84_matrix_free_preconditioner",
    "C84_exactly_two_levels",
    "C84_scale_refuted"
   ],
   "note": "Composition of C83, C57 and C60 over the matrix-free helpers; scale invariance refuted for every operator."
  },
  {
   "property": "C85",
   "status": "proved",
   "theorems": [
    "C85_boundary_ids",
    "C85_same_conditions",
    "C85_id_zero",
    "C85_id_zero_refuted",
    "C85_extra_cells",
    "C85_extra_cells_refuted"
   ],
   "note": "deal.II's build_triangulation_from_patch enters through the contract S_Bids.patch_contract; refuted for id 0 and for patches with extra cells."
  },
  {
   "property": "C86",
   "status": "proved",
   "theorems": [
    "C86_gap_of_lapack",
    "C86_coarse_space_approximates"
   ],
   "note": "LAPACK enters through S_Eig.lapack_ok and S_Rate.lapack_complete (it finds every eigenvalue of the interval it is asked for)."
  },
  {
   "property": "C87",
   "status": "proved",
   "theorems": [
    "C87_rate",
    "C87_repeated_calls",
    "C87_condition"
   ],
   "note": "The rate is a bound, not sharp; the constant of the smoother is an explicit function of the entries of A."
  },
  {
   "property": "C88",
   "status": "proved",
   "theorems": [
    "C88_host_operators",
    "C88_device_operators",
    "C88_hierarchy_refuted",
    "C88_operator_complexity_refuted",
    "C88_matrix_free_refuted"
   ],
   "note": "The hierarchy's functions are constants: their bodies are commented out in the code."
  },
  {
   "property": "C89",
   "status": "proved",
   "theorems": [
    "C89_one_process",
    "C89_symmetric_positive",
    "C89_jacobi_same",
    "C89_smoother",
    "C89_dominant",
    "C89_hierarchy",
    "C89_two_processes",
    "C89_three_processes_refuted"
   ],
   "note": "The action of the Trilinos preconditioners on several processes (additive Schwarz with overlap 0, one local sweep) is taken from their documentation. Products of matrices and the direct solver do not depend on the distribution."
  },
  {
   "property": "C90",
   "status": "proved",
   "theorems": [
    "C90_coarse_space_approximates",
    "C90_runs_exist",
    "C90_preconditioner",
    "C90_rate"
   ],
   "note": "Without fast_ap. The full row rank of R is a hypothesis; that LAPACK finds all eigenvalues of its interval is its contract. The assertions of check_restriction_matrix are C13."
  },
  {
   "property": "C91",
   "status": "proved",
   "theorems": [
    "C91_inexact",
    "C91_lanczos",
    "C91_more_vectors",
    "C91_coarse_space",
    "C91_runs_exist",
    "C91_rate",
    "C91_repeated_calls",
    "C91_condition",
    "C91_kernel_refuted",
    "C91_missed_refuted"
   ],
   "note": "Without fast_ap. The gap above the vectors returned is a hypothesis (C91_missed_refuted shows why); positive, not necessarily symmetric, element energies are enough here. The refuted theorems concern bounds without slack and without the gap."
  },
  {
   "property": "C92",
   "status": "proved",
   "theorems": [
    "C92_reducing",
    "C92_direct",
    "C92_rate",
    "C92_repeated_calls",
    "C92_condition",
    "C92_direct_condition",
    "C92_overshoot_refuted"
   ],
   "note": "Two levels. The coarse solver is required to be a fixed symmetric linear map (a V-cycle of ML with a symmetric smoother); the bounds alpha, beta are hypotheses about ML, required for the matrix R A R^T only. C92_overshoot_refuted concerns beta > 2."
  },
  {
   "property": "C93",
   "status": "proved",
   "theorems": [
    "C93_diagonal",
    "C93_ready",
    "C93_self_check",
    "C93_check_meaning",
    "C93_maps_refuted"
   ],
   "note": "Exact arithmetic: the tolerance 1e-14 of the check is met with difference 0. A setup without fast_ap and without matrix-free evaluators (the code skips the check for these). C93_maps_refuted shows what happens without the condition on the distribution."
  },
  {
   "property": "C94",
   "status": "proved",
   "theorems": [
    "C94_safe",
    "C94_released",
    "C94_assign_refuted",
    "C94_failure_refuted"
   ],
   "note": "The creation functions are assumed to leave the nullptr in place if they fail, and destruction of an existing handle to succeed. C94_assign_refuted, C94_failure_refuted."
  },
  {
   "property": "C95",
   "status": "proved",
   "theorems": [
    "C95_same_guess",
    "C95_values"
   ],
   "note": "The generator is a function from the number of the call to its result; both versions make a new one per call of set_initial_guess."
  },
  {
   "property": "C96",
   "status": "proved",
   "theorems": [
    "C96_arpack_requests",
    "C96_rows",
    "C96_lanczos_tolerance"
   ],
   "note": "One rank. C96_rows assumes that ARPACK returns what it is asked for, and checks on or another eigensolver than Anasazi."
  },
  {
   "property": "C97",
   "status": "proved",
   "theorems": [
    "C97_separate",
    "C97_runs_agree",
    "C97_chained"
   ],
   "note": "One rank. With several threads and reuse the result depends on the schedule: C54_guess_refuted."
  },
  {
   "property": "C98",
   "status": "proved",
   "theorems": [
    "C98_smoother_gain",
    "C98_rate",
    "C98_repeated_calls",
    "C98_condition"
   ],
   "note": "The estimates of the eigenvalues must bound the spectrum with the safety factor 1.2 (without that C83_max_eigenvalue_refuted applies), and the product A R^T must not have lost entries (C84_scale_refuted)."
  },
  {
   "property": "C99",
   "status": "proved",
   "theorems": [
    "C99_lanczos_pairs",
    "C99_lanczos",
    "C99_coarse_space",
    "C99_runs_exist",
    "C99_fast_product",
    "C99_lanczos_represents",
    "C99_rate",
    "C99_condition",
    "C99_wrong_diagonal_refuted"
   ],
   "note": "On one process. The diagonal of an agglomerate must be right at the free dofs; C99_wrong_diagonal_refuted shows what happens otherwise. The estimates of the eigenvalues for the smoother are as in C98."
  },
  {
   "property": "C100",
   "status": "proved",
   "theorems": [
    "C100_jacobi",
    "C100_gap",
    "C100_coarse_space",
    "C100_rate",
    "C100_repeated_calls",
    "C100_condition",
    "C100_diagonal_refuted"
   ],
   "note": "On one process, as C79: with more the code does not get this far (C74, C77). C100_diagonal_refuted: one cell with the matrix I + 9 J meets all other hypotheses, and vmult increases the error."
  },
  {
   "property": "C101",
   "status": "proved",
   "theorems": [
    "C101_terminates",
    "C101_rate",
    "C101_steps",
    "C101_rate_root",
    "C101_driver",
    "C101_solver_mode_refuted"
   ],
   "note": "SolverCG and SolverControl of deal.II are external; M_Cg.v transcribes their documented loop with its checks and exceptions, norms compared through their squares. C101_solver_mode_refuted: with 'is preconditioner' false two contents of the work vector give a result and NoConvergence."
  },
  {
   "property": "C102",
   "status": "proved",
   "theorems": [
    "C102_any_hierarchy",
    "C102_matrix_free",
    "C102_ranks"
   ],
   "note": "driver_converges of S_CgEnd.v states the claim; the loop is that of C101. On several ranks the vectors are the global ones and every rank runs the same scalar operations, as in M_Par.v."
  },
  {
   "property": "C103",
   "status": "proved",
   "theorems": [
    "C103_measures",
    "C103_factors",
    "C103_host",
    "C103_exact_coarse_space",
    "C103_from_mesh",
    "C103_rate_refuted",
    "C103_matrix_free",
    "C103_ranks"
   ],
   "note": "Norms are kept as squares, so the reported number is the square of conv_rate; doubles are exact numbers, infinity or not-a-number. C103_rate_refuted: a three-unknown hierarchy whose cycles reduce the energy norm of every error by 249/250 and for which the driver reports a rate above 1."
  },
  {
   "property": "C104",
   "status": "proved",
   "theorems": [
    "C104_rate",
    "C104_repeated_calls",
    "C104_condition",
    "C104_small_operators",
    "C104_symmetry_refuted"
   ],
   "note": "On one rank, exact arithmetic, direct coarse solver (elimination without pivoting, which the theorem shows never meets a zero pivot). C104_symmetry_refuted: A = [[2 1e-14] [1e-14 2]], R = [[1 1] [0 1]]. C104_small_operators: the product of a small multiple of any operator is zero."
  },
  {
   "property": "C105",
   "status": "proved",
   "theorems": [
    "C105_coarse_space",
    "C105_runs_exist",
    "C105_lanczos_represents",
    "C105_rate",
    "C105_condition",
    "C105_rate_dropped",
    "C105_own_share_refuted"
   ],
   "note": "Exact arithmetic; vectors of all ranks as one list after the restrictor, direct coarse solver without pivoting, without fast_ap. The evaluator of each rank and the eigenvalue estimates of the smoother enter through their contracts. C105_own_share_refuted: two ranks, three cells, each rank reads the sum over its own cells of the diagonal at the dof they share."
  },
  {
   "property": "C106",
   "status": "proved",
   "theorems": [
    "C106_bool_texts",
    "C106_options",
    "C106_required",
    "C106_hierarchy",
    "C106_fast_ap",
    "C106_device",
    "C106_words_refuted"
   ],
   "note": "The reading of texts is external (boost::property_tree over std::istream in the C locale); parse_bool and parse_int of M_Ptree.v follow it step by step: skip blanks, a number, else a word from where that stopped, blanks, end. C106_words_refuted: misspelt options are silently replaced by the defaults."
  },
  {
   "property": "C107",
   "status": "proved",
   "theorems": [
    "C107_product",
    "C107_lanczos",
    "C107_rate",
    "C107_condition"
   ],
   "note": "One rank, exact arithmetic, direct coarse solver without pivoting, Chebyshev smoother; the evaluator, LAPACK's stev and the eigenvalue estimates of the smoother enter through their contracts. The example runs with pairs whose residuals are not zero (about 5e-5)."
  },
  {
   "property": "C108",
   "status": "proved",
   "theorems": [
    "C108_product",
    "C108_restriction",
    "C108_lanczos",
    "C108_rate",
    "C108_condition",
    "C108_ghosts_refuted"
   ],
   "note": "Exact arithmetic, direct coarse solver without pivoting, Chebyshev smoother. The V-cycle is modelled on vectors of all ranks, not on their parts; the evaluator (also on ghost cells), the partitioners, LAPACK's stev and the eigenvalue estimates of the smoother enter through their contracts. On every rank all agglomerates or none must have neighbours outside, else the code pairs rows wrongly (C15)."
  },
  {
   "property": "C109",
   "status": "proved",
   "theorems": [
    "C109_product",
    "C109_restriction",
    "C109_one_restriction",
    "C109_fast_ap_same",
    "C109_preconditioner",
    "C109_rate"
   ],
   "note": "Exact arithmetic, LAPACK as the local eigensolver, direct coarse solver without pivoting, no constrained dofs. The V-cycle is modelled on vectors of all ranks, not on their parts; the evaluator (also on ghost cells), the partitioners and LAPACK enter through their contracts. On every rank all agglomerates or none must have neighbours outside, else the code pairs rows wrongly (C15). The rate is stated for the symmetric Gauss-Seidel smoother."
  },
  {
   "property": "C110",
   "status": "proved",
   "theorems": [
    "C110_span",
    "C110_restriction",
    "C110_same_preconditioner",
    "C110_distribution",
    "C110_rank_order",
    "C110_owned_rows_refuted"
   ],
   "note": "Exact arithmetic, LAPACK as the local eigensolver, direct coarse solver without pivoting, two levels, without fast_ap (C109 shows it changes nothing). The smoother is the same in both runs: the block smoothers of deal.II depend on the rows a rank owns, so owned_rows is held fixed. That the two runs cut the mesh into the same agglomerates is a hypothesis (same_patches): METIS and the blocks of the code may cut otherwise on other ranks. The examples are two ranks against one. The numbering of the dofs is the same in both runs."
  }
 ]
}