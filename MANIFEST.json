{
 "claims": [
  {
   "property": "C01",
   "status": "proved",
   "theorems": [
    "C01_saved_solutions_come_back"
   ],
   "note": "Memory backend; functions as heap addresses, coefficients in an arbitrary commutative ring."
  },
  {
   "property": "C02",
   "status": "proved",
   "theorems": [
    "C02_cells_do_not_interfere"
   ],
   "note": ""
  },
  {
   "property": "C03",
   "status": "proved",
   "theorems": [
    "C03_fresh_reads_are_harmless",
    "C03_fresh_read_returns_stored"
   ],
   "note": ""
  },
  {
   "property": "C04",
   "status": "proved",
   "theorems": [
    "C04_load_reports_missing_functions",
    "C04_load_shows_own_cell"
   ],
   "note": "Stated for live handles (store not cleared since creation) whose functions were not dropped."
  },
  {
   "property": "C05",
   "status": "proved",
   "theorems": [
    "C05_repeated_load_destroys",
    "C05_load_after_own_save_destroys"
   ],
   "note": "Characterises a defect: second load through one handle zeroes the stored functions."
  },
  {
   "property": "C06",
   "status": "proved",
   "theorems": [
    "C06_only_first_save_is_read"
   ],
   "note": "Any number of further saves through any live handles."
  },
  {
   "property": "C07",
   "status": "proved",
   "theorems": [
    "C07_old_handles_stay_unusable",
    "C07_run_leaves_store_empty",
    "C07_next_run_behaves_as_first"
   ],
   "note": "Crash points are arbitrary: any operation of the body may be Fail."
  },
  {
   "property": "C08",
   "status": "proved",
   "theorems": [
    "C08_one_object_per_key"
   ],
   "note": ""
  },
  {
   "property": "C09",
   "status": "proved",
   "theorems": [
    "C09_no_abort_on_disjoint_keys",
    "C09_no_abort_without_assertions",
    "C09_abort_exactly_after_foreign_insert",
    "C09_same_first_key_can_abort"
   ],
   "note": ""
  },
  {
   "property": "C10",
   "status": "proved",
   "theorems": [
    "C10_unsynchronised_read_reachable",
    "C10_insertions_exclude_each_other"
   ],
   "note": ""
  },
  {
   "property": "C11",
   "status": "proved",
   "theorems": [
    "C11_key_of_cell_name",
    "C11_different_cells_different_storage"
   ],
   "note": ""
  },
  {
   "property": "C12",
   "status": "proved",
   "theorems": [
    "C12_key_depends_on_last_part_only",
    "C12_last_part_exists_once",
    "C12_key_is_the_number",
    "C12_rejected_exactly_without_number",
    "C12_same_storage_exactly_same_number"
   ],
   "note": ""
  },
  {
   "property": "C13",
   "status": "proved",
   "theorems": [
    "C13_reconstruction_uses_solver_functions"
   ],
   "note": ""
  },
  {
   "property": "C14",
   "status": "proved",
   "theorems": [
    "C14_parallel_solves_do_not_depend_on_schedule"
   ],
   "note": ""
  },
  {
   "property": "C15",
   "status": "proved",
   "theorems": [
    "C15_slots_after_local_solves",
    "C15_slots_used_in_reconstruction"
   ],
   "note": ""
  },
  {
   "property": "C16",
   "status": "proved",
   "theorems": [
    "C16_interior_correction_is_linear"
   ],
   "note": ""
  },
  {
   "property": "C17",
   "status": "proved",
   "theorems": [
    "C17_cut_keeps_exactly_the_coarse_cell",
    "C17_cut_does_not_depend_on_order"
   ],
   "note": ""
  },
  {
   "property": "C18",
   "status": "proved",
   "theorems": [
    "C18_corrector_balances_the_field",
    "C18_corrector_is_orthogonal",
    "C18_orthogonal_iff_quadratures_agree",
    "C18_corrected_function_has_minimal_energy"
   ],
   "note": "Quadrature points, weights, gradients and diffusion values are arbitrary; the local solver is assumed to solve its system exactly."
  },
  {
   "property": "C19",
   "status": "proved",
   "theorems": [
    "C19_patch_contains_cell_and_stays_in_domain"
   ],
   "note": ""
  },
  {
   "property": "C20",
   "status": "proved",
   "theorems": [
    "C20_fine_width_exactly_when_layers_fit",
    "C20_otherwise_coarser",
    "C20_few_layers_always_fit"
   ],
   "note": ""
  },
  {
   "property": "C21",
   "status": "proved",
   "theorems": [
    "C21_local_nodes_are_fine_nodes",
    "C21_covered_cells_are_the_parts",
    "C21_covered_boxes"
   ],
   "note": ""
  },
  {
   "property": "C22",
   "status": "proved",
   "theorems": [
    "C22_uncovered_cell_assembles_nothing",
    "C22_fine_width_recognises_some_cell",
    "C22_stretched_mesh_can_miss_the_cell"
   ],
   "note": ""
  },
  {
   "property": "C23",
   "status": "proved",
   "theorems": [
    "C23_one_grid_per_interior_cell",
    "C23_other_cells_are_refused"
   ],
   "note": ""
  },
  {
   "property": "C24",
   "status": "proved",
   "theorems": [
    "C24_answers_are_collected_without_gaps",
    "C24_remembered_cell_contains_all_points",
    "C24_results_belong_to_remembered_cell"
   ],
   "note": ""
  },
  {
   "property": "C25",
   "status": "proved",
   "theorems": [
    "C25_search_succeeds",
    "C25_first_cell_in_cyclic_order"
   ],
   "note": ""
  },
  {
   "property": "C26",
   "status": "proved",
   "theorems": [
    "C26_search_always_terminates",
    "C26_failure_is_reported",
    "C26_unusable_after_any_failure"
   ],
   "note": ""
  },
  {
   "property": "C27",
   "status": "proved",
   "theorems": [
    "C27_single_cell_never_searchable"
   ],
   "note": ""
  },
  {
   "property": "C28",
   "status": "proved",
   "theorems": [
    "C28_proxy_outcomes",
    "C28_unique_cell_always_answers",
    "C28_every_containing_cell_can_answer",
    "C28_proxy_uses_the_answering_cell"
   ],
   "note": ""
  },
  {
   "property": "C29",
   "status": "proved",
   "theorems": [
    "C29_value_over_multiplicity",
    "C29_reproduced_iff",
    "C29_accumulation_reproduces"
   ],
   "note": "Relies on GDT LocalDoFVector::set overwriting; the accumulating variant is treated in a third theorem."
  },
  {
   "property": "C30",
   "status": "proved",
   "theorems": [
    "C30_order_irrelevant",
    "C30_interleaving_irrelevant",
    "C30_missing_point_always_throws"
   ],
   "note": "Element orders and interleavings of single writes; the source must be single valued at nodes."
  },
  {
   "property": "C31",
   "status": "proved",
   "theorems": [
    "C31_multiplicity_counts_incidences",
    "C31_assertion_iff"
   ],
   "note": ""
  },
  {
   "property": "C32",
   "status": "proved",
   "theorems": [
    "C32_coarse_overlap_smallest",
    "C32_coarse_overlap_defined"
   ],
   "note": ""
  },
  {
   "property": "C33",
   "status": "proved",
   "theorems": [
    "C33_whole_numbers_refine",
    "C33_coarse_grid_as_configured",
    "C33_nested_iff_divides"
   ],
   "note": ""
  },
  {
   "property": "C34",
   "status": "proved",
   "theorems": [
    "C34_created_iff_uniform",
    "C34_coarse_grid_rejected_iff"
   ],
   "note": ""
  },
  {
   "property": "C35",
   "status": "proved",
   "theorems": [
    "C35_check_fires_iff",
    "C35_check_fires_for_both_grids_iff",
    "C35_exact_without_overlap",
    "C35_missed_with_overlap"
   ],
   "note": "Grid answers (stored cells, overlap layers, process number) are parameters; overlapSize is the overlap width as documented by DUNE."
  },
  {
   "property": "C36",
   "status": "proved",
   "theorems": [
    "C36_entries_exact",
    "C36_no_report_without_projection",
    "C36_entries_of_the_drivers"
   ],
   "note": "Functions and norms are arbitrary; the text log and VTK output are not modelled."
  },
  {
   "property": "C37",
   "status": "proved",
   "theorems": [
    "C37_columns_line_up",
    "C37_keys_are_plain"
   ],
   "note": ""
  },
  {
   "property": "C38",
   "status": "proved",
   "theorems": [
    "C38_fine_failure",
    "C38_coarse_failure",
    "C38_fem_run_loses_fine_entries",
    "C38_other_exceptions_escape"
   ],
   "note": "Solver outcomes: success, Dune::Exception, other exception."
  },
  {
   "property": "C39",
   "status": "proved",
   "theorems": [
    "C39_key_suffixes",
    "C39_documented_l2_names"
   ],
   "note": ""
  },
  {
   "property": "C40",
   "status": "proved",
   "theorems": [
    "C40_reference_solution_solves_the_boundary_value_problem",
    "C40_coarse_solution_solves_the_boundary_value_problem"
   ],
   "note": "Equivalence: results of the modelled steps are exactly the solutions of the boundary value problem."
  },
  {
   "property": "C41",
   "status": "proved",
   "theorems": [
    "C41_result_independent_of_start_value",
    "C41_repeated_solves_return_the_same_solution",
    "C41_definite_systems_are_uniquely_solvable"
   ],
   "note": ""
  },
  {
   "property": "C42",
   "status": "proved",
   "theorems": [
    "C42_coarse_outcomes",
    "C42_coarse_outcomes_release",
    "C42_coarse_solution_is_finite",
    "C42_local_outcomes",
    "C42_reference_outcomes",
    "C42_statistics_are_ignored"
   ],
   "note": "Finite numbers are rationals, non-finite ones are None."
  },
  {
   "property": "C43",
   "status": "proved",
   "theorems": [
    "C43_element_matrix_spd",
    "C43_global_matrix_spd",
    "C43_assembly_order_irrelevant",
    "C43_assembly_defined_iff"
   ],
   "note": ""
  },
  {
   "property": "C44",
   "status": "proved",
   "theorems": [
    "C44_equal_if_gradients_constant",
    "C44_equal_if_not_refined",
    "C44_what_is_assembled",
    "C44_global_matrix",
    "C44_differs_on_refined_cells"
   ],
   "note": ""
  },
  {
   "property": "C45",
   "status": "proved",
   "theorems": [
    "C45_element_rhs",
    "C45_interior_cell",
    "C45_global_rhs"
   ],
   "note": ""
  },
  {
   "property": "C46",
   "status": "proved",
   "theorems": [
    "C46_synthetic_source_is_minus_divergence",
    "C46_synthetic_source_in_three_dimensions"
   ],
   "note": "Exact real arithmetic; any gradient of the exact solution, any content of the output arguments."
  },
  {
   "property": "C47",
   "status": "proved",
   "theorems": [
    "C47_synthetic_jacobian_is_the_gradient",
    "C47_synthetic_flux_applies_the_tensor",
    "C47_synthetic_dirichlet_data_are_the_solution",
    "C47_synthetic_neumann_data",
    "C47_synthetic_kinds_of_boundary"
   ],
   "note": "Output arguments' off-diagonal entries must be zero before the call for the tensor statement."
  },
  {
   "property": "C48",
   "status": "proved",
   "theorems": [
    "C48_synthetic_diffusion_bounds",
    "C48_synthetic_diffusion_is_uniformly_elliptic"
   ],
   "note": ""
  },
  {
   "property": "C49",
   "status": "proved",
   "theorems": [
    "C49_er2007_source_is_minus_laplacian",
    "C49_er2007_solution_and_boundary_data",
    "C49_er2007_flux_applies_the_tensor",
    "C49_er2007_source_derivative"
   ],
   "note": ""
  },
  {
   "property": "C50",
   "status": "proved",
   "theorems": [
    "C50_spe10_reads_the_containing_cell",
    "C50_cell_of_a_point_is_unique",
    "C50_different_cells_use_different_entries",
    "C50_table_and_box"
   ],
   "note": "Coordinates and table values are rationals."
  },
  {
   "property": "C51",
   "status": "proved",
   "theorems": [
    "C51_spe10_reading",
    "C51_spe10_values_in_requested_range",
    "C51_spe10_default_limits_keep_the_values",
    "C51_spe10_missing_file_or_bad_limits",
    "C51_spe10_file_values_reach_evaluate"
   ],
   "note": "Files are lists of words; stream extraction as in the C++11 library."
  },
  {
   "property": "C52",
   "status": "proved",
   "theorems": [
    "C52_tarbert_reads_the_containing_cell",
    "C52_tarbert_accesses_stay_inside_the_table",
    "C52_tarbert_table_and_box",
    "C52_tarbert_upper_boundaries_read_another_cell",
    "C52_tarbert_without_data"
   ],
   "note": "Dimensions 2 and 3; deltas as exact rationals."
  },
  {
   "property": "C53",
   "status": "proved",
   "theorems": [
    "C53_evaluations_that_do_not_overlap_are_correct",
    "C53_single_thread_completes",
    "C53_every_interleaving_mixes_cells",
    "C53_interleaving_returns_the_other_point"
   ],
   "note": "Sequentially consistent steps, one per access to a shared member; formally the accesses are data races."
  },
  {
   "property": "C54",
   "status": "proved",
   "theorems": [
    "C54_tarbert_reading",
    "C54_tarbert_unreadable_word_overruns",
    "C54_tarbert_last_value",
    "C54_tarbert_missing_file",
    "C54_tarbert_destruction"
   ],
   "note": "Files are lists of words; stream extraction as in the C++11 library."
  },
  {
   "property": "C55",
   "status": "proved",
   "theorems": [
    "C55_partition_multiplies_up"
   ],
   "note": "log2 is exact; dimensions are arbitrary positive numbers."
  },
  {
   "property": "C56",
   "status": "proved",
   "theorems": [
    "C56_positions_are_a_bijection"
   ],
   "note": ""
  },
  {
   "property": "C57",
   "status": "proved",
   "theorems": [
    "C57_range_is_block_with_overlap",
    "C57_blocks_cover_the_grid",
    "C57_ranges_without_overlap_meet_in_end_points",
    "C57_too_many_processes_leave_a_gap",
    "C57_other_process_numbers_are_undefined"
   ],
   "note": "Undefined outcome: partition loops/asserts are not defined for other process numbers."
  },
  {
   "property": "C58",
   "status": "proved",
   "theorems": [
    "C58_redistribution_2d",
    "C58_redistribution_3d",
    "C58_ranges_are_proper"
   ],
   "note": "FFTW layer distribution and MPI_Get window semantics as parameters; MPI_Get reads are exact."
  },
  {
   "property": "C59",
   "status": "proved",
   "theorems": [
    "C59_evaluation_interpolates_2d",
    "C59_evaluation_interpolates_3d",
    "C59_interpolation_2d",
    "C59_interpolation_3d",
    "C59_never_below_the_minimum",
    "C59_outside_the_range_it_throws"
   ],
   "note": "Coordinates and field values are rationals."
  },
  {
   "property": "C60",
   "status": "proved",
   "theorems": [
    "C60_out_of_bounds_2d",
    "C60_out_of_bounds_3d",
    "C60_right_boundary_reads_past_the_end"
   ],
   "note": "Exact characterisation of the points for which the code reads past the array."
  },
  {
   "property": "C61",
   "status": "proved",
   "theorems": [
    "C61_create_alternates",
    "C61_every_field_is_used_twice",
    "C61_before_create_the_field_is_minimal"
   ],
   "note": "Random numbers are a stream indexed by a counter; FFT and redistribution are arbitrary functions."
  },
  {
   "property": "C62",
   "status": "proved",
   "theorems": [
    "C62_unknown_problem",
    "C62_known_problem",
    "C62_failing_member_leaks_nothing",
    "C62_failing_initialisation_leaks_nothing"
   ],
   "note": "Constructors and problem_init are parameters that may throw."
  },
  {
   "property": "C63",
   "status": "proved",
   "theorems": [
    "C63_files_lie_in_the_directory",
    "C63_directory_is_fixed",
    "C63_different_pairs_do_not_collide",
    "C63_names_do_not_collide"
   ],
   "note": "test_create_directory is external; set_prefix creates a directory relative to the working directory."
  },
  {
   "property": "C64",
   "status": "proved",
   "theorems": [
    "C64_memory_report",
    "C64_only_rank_zero_writes"
   ],
   "note": "long is unbounded."
  },
  {
   "property": "C65",
   "status": "proved",
   "theorems": [
    "C65_exit_status",
    "C65_zero_means_finished",
    "C65_all_statuses"
   ],
   "note": "The status of abort_all_mpi_processes is a parameter."
  },
  {
   "property": "C66",
   "status": "proved",
   "theorems": [
    "C66_lookups_never_deadlock",
    "C66_lookups_terminate",
    "C66_every_lookup_completes"
   ],
   "note": ""
  },
  {
   "property": "C67",
   "status": "proved",
   "theorems": [
    "C67_fine_grid_uses_default_communicator"
   ],
   "note": ""
  },
  {
   "property": "C68",
   "status": "proved",
   "theorems": [
    "C68_reported_flow_is_zero",
    "C68_process_without_cells",
    "C68_flow_of_a_function",
    "C68_flow_of_bilinear_functions"
   ],
   "note": ""
  },
  {
   "property": "C69",
   "status": "proved",
   "theorems": [
    "C69_diffusion_leaves_other_entries",
    "C69_flux_leaves_third_component"
   ],
   "note": ""
  },
  {
   "property": "C70",
   "status": "proved",
   "theorems": [
    "C70_boundary_values_vanish_on_three_sides",
    "C70_boundary_values_on_the_right_side",
    "C70_default_epsilon_has_zero_boundary_values"
   ],
   "note": ""
  },
  {
   "property": "C71",
   "status": "proved",
   "theorems": [
    "C71_spe10_data",
    "C71_tarbert_data_3d",
    "C71_tarbert_data_2d_vanish"
   ],
   "note": "FloatCmp::eq is a parameter recognising zero."
  },
  {
   "property": "C72",
   "status": "proved",
   "theorems": [
    "C72_value_does_not_depend_on_the_rank_2d",
    "C72_every_point_is_evaluated_by_some_rank_2d",
    "C72_value_does_not_depend_on_the_rank_3d",
    "C72_every_point_is_evaluated_by_some_rank_3d"
   ],
   "note": "Holds for fields stored in FFTW layers; points on the upper faces are covered by C60."
  },
  {
   "property": "C73",
   "status": "proved",
   "theorems": [
    "C73_random_diffusion_is_elliptic",
    "C73_random_boundary_data",
    "C73_segments"
   ],
   "note": ""
  },
  {
   "property": "C74",
   "status": "proved",
   "theorems": [
    "C74_abort_needs_the_other_processes"
   ],
   "note": "Kinds of collective operations are not compared."
  },
  {
   "property": "C75",
   "status": "proved",
   "theorems": [
    "C75_new_handle_shows_zero_functions",
    "C75_handles_of_a_cell_use_one_space"
   ],
   "note": ""
  },
  {
   "property": "C76",
   "status": "proved",
   "theorems": [
    "C76_stored_functions_are_those_of_the_handle",
    "C76_later_writes_reach_readers",
    "C76_drop_keeps_stored_functions"
   ],
   "note": ""
  },
  {
   "property": "C77",
   "status": "proved",
   "theorems": [
    "C77_default_boundary_conditions",
    "C77_construction_fails_iff",
    "C77_settings_come_from_the_global_configuration",
    "C77_agrees_with_problem_data"
   ],
   "note": "Axis parallel normals only; NormalBased and AllDirichlet of dune-stuff are modelled after their documentation."
  },
  {
   "property": "C78",
   "status": "proved",
   "theorems": [
    "C78_local_grids_constrained_all_around",
    "C78_local_grids_constrained_on_one_side",
    "C78_boundary_nodes_left_free"
   ],
   "note": "Local grids are boxes; DirichletConstraints constrains the nodes on Dirichlet boundary intersections."
  },
  {
   "property": "C79",
   "status": "proved",
   "theorems": [
    "C79_solution_is_coarse_plus_correction",
    "C79_ranks_without_or_with_foreign_cells"
   ],
   "note": "The coarse linear solver and the Lagrange prolongation are parameters."
  },
  {
   "property": "C80",
   "status": "proved",
   "theorems": [
    "C80_constrained_nodes_show_the_coarse_function",
    "C80_neighbouring_cells_agree"
   ],
   "note": "Local systems have unit rows and zero right hand sides for constrained nodes."
  },
  {
   "property": "C81",
   "status": "proved",
   "theorems": [
    "C81_functions_vanishing_on_constrained_nodes_are_cancelled",
    "C81_coarse_values_without_effect",
    "C81_solution_jumps_between_cells",
    "C81_coarse_system_singular"
   ],
   "note": "Local problems are solved exactly and are uniquely solvable; the local grid is the coarse cell, coarse functions are multilinear. The singular matrix statement concerns gradients as the assembler takes them (see C44)."
  },
  {
   "property": "C82",
   "status": "proved",
   "theorems": [
    "C82_reference_solution_minimises_energy",
    "C82_coarse_solution_minimises_energy",
    "C82_energy_gap"
   ],
   "note": "Linear systems are solved exactly; the elliptic operator of the reference solver is an arbitrary symmetric semidefinite matrix."
  },
  {
   "property": "C83",
   "status": "proved",
   "theorems": [
    "C83_reference_solutions_superpose",
    "C83_coarse_solutions_superpose",
    "C83_correctors_superpose"
   ],
   "note": "Linear systems are solved exactly."
  },
  {
   "property": "C84",
   "status": "proved",
   "theorems": [
    "C84_no_correction_iff_flux_balanced",
    "C84_zero_is_a_corrector_iff"
   ],
   "note": "Local problems are solved exactly."
  },
  {
   "property": "C85",
   "status": "proved",
   "theorems": [
    "C85_grids_follow_the_configuration_at_creation",
    "C85_local_refinement_follows_the_global_configuration",
    "C85_local_and_fine_mesh_agree_iff",
    "C85_msfem_program_uses_one_mesh_width"
   ],
   "note": "Parsing and validation of configuration values are external."
  },
  {
   "property": "C86",
   "status": "proved",
   "theorems": [
    "C86_outcomes",
    "C86_pictures_show_exactly_the_coarse_cells",
    "C86_every_fine_cell_in_one_picture"
   ],
   "note": "VTK output is external."
  },
  {
   "property": "C87",
   "status": "proved",
   "theorems": [
    "C87_parts_have_their_own_files",
    "C87_corrections_have_their_own_files",
    "C87_parts_and_corrections_differ",
    "C87_one_file_per_part",
    "C87_part_name",
    "C87_correction_name",
    "C87_listing_is_in_order"
   ],
   "note": "Only the names are modelled; the file system is external."
  },
  {
   "property": "C88",
   "status": "proved",
   "theorems": [
    "C88_reported_errors_are_not_negative",
    "C88_l2_errors_form_triangles",
    "C88_h1_errors_form_triangles",
    "C88_zero_error_means_agreement",
    "C88_failed_coarse_solve_reports_norms"
   ],
   "note": "Exact real arithmetic; quadratures are external, with non-negative weights."
  },
  {
   "property": "C89",
   "status": "proved",
   "theorems": [
    "C89_passing_test_means",
    "C89_missing_bound_fails",
    "C89_no_exact_solution_passes",
    "C89_skipped_errors_pass",
    "C89_surplus_of_second_run_unseen"
   ],
   "note": "FloatCmp::eq is a parameter."
  },
  {
   "property": "C90",
   "status": "proved",
   "theorems": [
    "C90_multiscale_solution_balances",
    "C90_balances_as_one_function",
    "C90_assembled_iff",
    "C90_order_irrelevant"
   ],
   "note": "Exact real arithmetic; the linear solver is external (any solution of the constrained system)."
  },
  {
   "property": "C91",
   "status": "proved",
   "theorems": [
    "C91_gradient_is_determined"
   ],
   "note": "Exact real arithmetic."
  },
  {
   "property": "C92",
   "status": "proved",
   "theorems": [
    "C92_pure_neumann_needs_balanced_data",
    "C92_pure_neumann_level_is_free"
   ],
   "note": "Exact real arithmetic."
  },
  {
   "property": "C93",
   "status": "proved",
   "theorems": [
    "C93_reference_solution_balances",
    "C93_order_irrelevant"
   ],
   "note": "Exact real arithmetic; the linear solver is external (any solution of the constrained system)."
  },
  {
   "property": "C94",
   "status": "proved",
   "theorems": [
    "C94_difference_is_orthogonal",
    "C94_distances_add_up",
    "C94_best_approximation",
    "C94_exact_if_possible",
    "C94_not_best_on_refined_cells"
   ],
   "note": "Exact real arithmetic; that the multiscale functions belong to the reference space is a premise, shown to be met by one example and violated by another."
  },
  {
   "property": "C95",
   "status": "proved",
   "theorems": [
    "C95_balance_inside_a_cell",
    "C95_solution_balances_where_quadratures_agree",
    "C95_boundary_cells_balance_iff",
    "C95_dirichlet_values_are_corrected_twice",
    "C95_balance_needs_no_dirichlet_correction"
   ],
   "note": "Exact real arithmetic, exact local solves, no oversampling; the fine functions of the corners are the prolonged coarse basis functions. The claim describes what the code does; the case shows that the balance one expects fails."
  },
  {
   "property": "C96",
   "status": "proved",
   "theorems": [
    "C96_every_intersection_counts",
    "C96_difference_to_the_filtered_functional",
    "C96_spe10_and_tarbert",
    "C96_spe10_inflow_has_the_wrong_sign"
   ],
   "note": "Exact real arithmetic; that a functional added without filter visits all intersections is GDT's documented default (external). The sign theorem is for SPE10 without oversampling."
  },
  {
   "property": "C97",
   "status": "proved",
   "theorems": [
    "C97_equal_reports_give_the_report",
    "C97_every_byte_comes_from_a_report"
   ],
   "note": "The file system is modelled as POSIX: opening truncates, a write at a position beyond the end fills with zeros. That all processes compute the same report (sums over all processes inside the norms) is external; the second theorem and the second example say what happens otherwise."
  },
  {
   "property": "C98",
   "status": "proved",
   "theorems": [
    "C98_text_and_file_agree",
    "C98_no_label_twice",
    "C98_text_determines_file",
    "C98_only_the_coarse_quotient_can_be_infinite",
    "C98_quotients"
   ],
   "note": "Lines of text as label and value; formatting of numbers and the logger are not modelled. Exact reals with infinities and NaN."
  },
  {
   "property": "C99",
   "status": "proved",
   "theorems": [
    "C99_append_is_refused",
    "C99_nothing_is_ever_stored",
    "C99_paths_are_different"
   ],
   "note": "One thread. test_create_directory is external, only the paths given to it are recorded."
  },
  {
   "property": "C100",
   "status": "proved",
   "theorems": [
    "C100_logarithms_have_mean_zero",
    "C100_different_fields_are_uncorrelated",
    "C100_correlation_is_met",
    "C100_transformed_correlation_is_real"
   ],
   "note": "Exact real arithmetic. FFTW is modelled by its documented result (unnormalised transform of the whole array, distributed by rows, transposed storage), the random engines as numbers with mean zero, variance one and no correlation; that differently seeded engines behave so is external. Values at nodes before redistribution (C58) and interpolation (C59)."
  },
  {
   "property": "C101",
   "status": "proved",
   "theorems": [
    "C101_variance_is_never_too_small",
    "C101_negative_eigenvalue",
    "C101_long_correlation_lengths_inflate_the_variance"
   ],
   "note": "As C100. The inflation is shown for one concrete correlation length; which other lengths are affected is answered by the equivalence with non-negative eigenvalues."
  },
  {
   "property": "C102",
   "status": "proved",
   "theorems": [
    "C102_direct_solver_solves",
    "C102_other_solvers_change_nothing",
    "C102_other_solvers_give_zero_correctors",
    "C102_solution_is_the_coarse_function",
    "C102_coarse_system_has_no_correctors"
   ],
   "note": "The external solvers are arbitrary; that Stuff::LA::Solver::apply takes the right hand side first is read off its two other uses in the code (fem_solver.cc:124, coarse_scale_operator.cc:123)."
  },
  {
   "property": "C103",
   "status": "proved",
   "theorems": [
    "C103_file_exactly_on_return",
    "C103_returned_entries",
    "C103_flow_logged_once",
    "C103_pictures_change_nothing",
    "C103_failed_coarse_picture",
    "C103_text_of_a_failed_call",
    "C103_failed_late_picture",
    "C103_pictures",
    "C103_agrees_with_the_report"
   ],
   "note": "One process. A picture is its prefix and function, a failing picture leaves no file; failing is decided per external call."
  },
  {
   "property": "C104",
   "status": "proved",
   "theorems": [
    "C104_value_by_position",
    "C104_constant_norm",
    "C104_projection_test",
    "C104_error_floor",
    "C104_perfect_solution"
   ],
   "note": "One process, exact rationals. Local products are arbitrary (bilinear, symmetric, not negative, local); the L2 product of multilinear functions is shown to be one. vector().set is read as overwriting, as in C29."
  },
  {
   "property": "C105",
   "status": "proved",
   "theorems": [
    "C105_timing_calls_lawful",
    "C105_profile_complete",
    "C105_computations_made",
    "C105_left_running",
    "C105_success",
    "C105_restarted",
    "C105_failed_run"
   ],
   "note": "One process; what lies between two timing calls is one external call that returns or throws. What the timing library does with a second start of a running section is left open. After an exception that no handler catches no profile is written by the program."
  },
  {
   "property": "C106",
   "status": "proved",
   "theorems": [
    "C106_lagrange_check_says_nothing",
    "C106_corner_check",
    "C106_corner_check_ignores_nesting",
    "C106_match_test",
    "C106_dimension_check",
    "C106_search_test",
    "C106_whole_test",
    "C106_several_processes"
   ],
   "note": "Exact rationals; elements are axis parallel boxes; floating point comparisons of the test are exact. check_lagrange_points is not modelled. The per-grid searches are assumed to answer for the points of their cell (C19-C21)."
  },
  {
   "property": "C107",
   "status": "proved",
   "theorems": [
    "C107_orders_requested",
    "C107_integral_is_unique",
    "C107_rules_are_exact",
    "C107_coarse_matrix_is_exact",
    "C107_coarse_rhs_flux_is_exact",
    "C107_coarse_rhs_source_is_exact",
    "C107_coarse_quadratures_agree",
    "C107_local_quadratures_agree",
    "C107_local_quadratures_are_the_same",
    "C107_declared_order_is_not_enough"
   ],
   "note": "The rules themselves (smallest Gauss rule of the requested order, as a product rule on cubes) and the order a basis function set reports are external and stated in the model; Gauss rules with up to three points, which covers all orders in use. The order of GDT's elliptic operator is a parameter."
  },
  {
   "property": "C108",
   "status": "proved",
   "theorems": [
    "C108_local_problems_are_definite",
    "C108_multilinear_functions_need_no_correction",
    "C108_linear_functions_need_no_correction",
    "C108_is_the_coarse_finite_element_method",
    "C108_multilinear_solutions_are_reproduced",
    "C108_linear_solutions_are_reproduced"
   ],
   "note": "The box grids and the elements of order one are external and written down in PatchSpec.v. That a corrector with zero coefficients is stored as a zero function (the premise uncorrected of the coarse theorems) is how the stored functions are read in C79. Neumann boundaries are outside: there the Neumann corrector does not vanish (C96)."
  },
  {
   "property": "C109",
   "status": "proved",
   "theorems": [
    "C109_coarse_parts_add_up",
    "C109_reference_rows_are_complete",
    "C109_one_layer_of_overlap_suffices",
    "C109_owner_rows_balance_owned_cells",
    "C109_inner_rows_are_complete",
    "C109_rows_of_others_are_empty",
    "C109_border_rows_lack_energy",
    "C109_added_reference_parts_repeat_the_overlap"
   ],
   "note": "The distribution of the cells is arbitrary; the unknowns have one common numbering and all processes agree on the constrained ones. What the external parallel solver makes of the parts is a parameter; the two usual readings are treated, the code does not say which one applies."
  },
  {
   "property": "C110",
   "status": "proved",
   "theorems": [
    "C110_solvable_iff_unique",
    "C110_every_corrector_exists_once",
    "C110_every_local_problem_has_one_solution",
    "C110_reference_solution_exists_once",
    "C110_pure_neumann_solvable_iff_balanced",
    "C110_coarse_solution_exists_once_iff",
    "C110_coarse_solution_exists_once_without_oversampling"
   ],
   "note": "The box grids and the elements of order one are external and written down in PatchSpec.v; exact real arithmetic and an exact linear solver, so nothing is said about convergence of the iteration. With oversampling the coarse system is characterised (C110_coarse_solution_exists_once_iff) but the condition is not decided in general."
  },
  {
   "property": "C111",
   "status": "proved",
   "theorems": [
    "C111_coarse_functions_on_local_grids",
    "C111_layers_have_no_effect",
    "C111_coarse_system_is_singular"
   ],
   "note": "The agreement of the two local quadratures is a premise; C107 gives it for every diffusion if the external operator chooses order two or three, and for constant or linear diffusion on every fine cell with any exact order. Positive definiteness is needed at quadrature points only through the diffusion field. Only the boundary conditions built into the two problems; a configuration with problem.boundaryInfo can replace them."
  },
  {
   "property": "C112",
   "status": "proved",
   "theorems": [
    "C112_local_functions_are_determined",
    "C112_one_result_iff_one_coarse_solution",
    "C112_exactly_one_result_without_oversampling",
    "C112_never_exactly_one_result"
   ],
   "note": "The right hand sides of the two boundary correctors are arbitrary, so nothing depends on how they are computed. With oversampling and constraints all around the local grids the coarse system is characterised (C110) but not decided."
  },
  {
   "property": "C113",
   "status": "proved",
   "theorems": [
    "C113_dirichlet_right_hand_side_in_other_units",
    "C113_neumann_right_hand_side_in_other_units",
    "C113_result_in_other_units",
    "C113_reference_in_other_units"
   ],
   "note": "Exact real arithmetic; absolute thresholds of external solvers and the tolerances inside the problems' boundary data (C71) are not scaled. That a change of units multiplies edges, points and face weights as in UnitsSpec.v is written down from the definition of boxes."
  },
  {
   "property": "C114",
   "status": "proved",
   "theorems": [
    "C114_sizes_up_to_the_limit_are_right",
    "C114_larger_fields_are_undefined",
    "C114_displacements_up_to_the_limit_are_right",
    "C114_displacements_need_room_for_the_next",
    "C114_indices_up_to_the_limit_are_right"
   ],
   "note": "int is taken to have 32 bits and ptrdiff_t to be large enough; overflow is undefined behaviour whatever a machine makes of it. The rows per process are chosen by the Fourier transform library (any number up to all rows)."
  },
  {
   "property": "C115",
   "status": "proved",
   "theorems": [
    "C115_local_problems_do_not_depend_on_the_order",
    "C115_local_right_hand_sides_do_not_depend_on_the_order",
    "C115_coarse_solution_does_not_depend_on_the_order",
    "C115_reference_solution_does_not_depend_on_the_order"
   ],
   "note": "In exact arithmetic; with floating point numbers sums in another order differ by rounding. Storage and search have their own order results (C14, C28, C30)."
  },
  {
   "property": "C116",
   "status": "proved",
   "theorems": [
    "C116_comparison",
    "C116_maximum_principle",
    "C116_shapes",
    "C116_condition_is_needed"
   ],
   "note": "Boxes with diagonal diffusion that is constant inside each fine cell; Gauss rules with two or three points per direction are exact for the products of gradients. Exact real arithmetic."
  },
  {
   "property": "C117",
   "status": "proved",
   "theorems": [
    "C117_range_on_the_local_grid",
    "C117_no_new_extrema_without_oversampling",
    "C117_corrected_shape_functions"
   ],
   "note": "As C116, for the local problems; the constrained nodes are arbitrary, so both the settings with and without oversampling are covered. The corrections of the two boundary functions (C108) are not bounded here."
  },
  {
   "property": "C118",
   "status": "proved",
   "theorems": [
    "C118_flux",
    "C118_elliptic",
    "C118_derivative",
    "C118_inflow"
   ],
   "note": "No target of the repository compiles thirteen.cc (selector.cc only includes the header, whose declarations differ), so this is about the functions as written. Exact real arithmetic."
  },
  {
   "property": "C119",
   "status": "proved",
   "theorems": [
    "C119_matrix_between_means",
    "C119_between_harmonic_and_arithmetic_mean",
    "C119_matrix_grows_with_the_diffusion",
    "C119_quadratures_agree"
   ],
   "note": "Only for functions that are linear on the whole domain: for others the assembled matrix is not the energy of the corrected functions (C44). The lower bound needs all outer nodes constrained; with the one constrained side of SPE10 and Tarbert the energy of some functions is zero (C111). Exact real arithmetic."
  },
  {
   "property": "C120",
   "status": "proved",
   "theorems": [
    "C120_residual_bounds_the_error",
    "C120_energy_bounds_node_values",
    "C120_reference_residual",
    "C120_local_residual",
    "C120_errors_enter_squared",
    "C120_coarse_matrix_error"
   ],
   "note": "The returned vector is assumed right at the constrained unknowns (the direct solver of the local problems gives that; their rows are identity rows, C40). The bound for the coarse matrix is for linear functions without oversampling, as in C119. For the coarse system itself c is a hypothesis. Exact real arithmetic apart from the residual."
  },
  {
   "property": "C121",
   "status": "proved",
   "theorems": [
    "C121_reference_solution",
    "C121_corrections",
    "C121_coarse_matrix",
    "C121_source",
    "C121_larger_diffusion_smaller_response"
   ],
   "note": "Differences of the diffusion are measured in its energy, so a change of a fraction delta of a scalar diffusion is covered, and also the random field read from differently sampled files if it is relatively close. The bound for the coarse matrix is for linear functions without oversampling, as in C119. Exact real arithmetic."
  },
  {
   "property": "C122",
   "status": "proved",
   "theorems": [
    "C122_when_the_number_is_right",
    "C122_stored_cells",
    "C122_one_process",
    "C122_several_processes",
    "C122_number_of_systems",
    "C122_partition_check_never_fires"
   ],
   "note": "The source itself says in a todo comment that the output is wrong; the theorems say when. That a structured grid stores the own cells plus the layers of overlap, cut at the boundary of the domain, is assumed of the external grid class. Numbers below 2^31 cells for the check."
  },
  {
   "property": "C123",
   "status": "proved",
   "theorems": [
    "C123_one_configuration_per_setup",
    "C123_grids_of_the_setup",
    "C123_multiscale_comparison_fails",
    "C123_multiscale_bounds_under_wrong_keys",
    "C123_reference_comparison",
    "C123_projection_test_fails",
    "C123_error_test",
    "C123_error_test_with_comparison",
    "C123_compared_runs",
    "C123_grid_test"
   ],
   "note": "The program that expands the files is external; its sections, include, list of setups and nested references are modelled as the files use them, and an included file does not change the current section. Errors are not negative (square roots). The check that the cells per direction are valid (an external validator) is left out; if it refuses one cell per direction, the single cell setup fails earlier. The grid tests: for one process, with local searches that find the points of their cell."
  },
  {
   "property": "C124",
   "status": "proved",
   "theorems": [
    "C124_same_system_as_one_thread",
    "C124_always_ends",
    "C124_entries_of_one_thread",
    "C124_unlocked_additions_are_lost",
    "C124_shared_storage_is_wrong"
   ],
   "note": "add_to_entry, the choice of the storage per thread and the partitioning are external, so both readings are treated. The diffusion is a function here (the race of the Tarbert data is C53), the stored local solutions are only read. Neumann functional, Dirichlet projection and the constraints, which run in the same or a second walk, are left out. Exact real arithmetic: with floating point numbers the order of the additions changes the rounding."
  },
  {
   "property": "C125",
   "status": "proved",
   "theorems": [
    "C125_double_precision_is_covered",
    "C125_relative_error",
    "C125_overlap_is_exact",
    "C125_overlap_of_fractions",
    "C125_partition_is_exact",
    "C125_spe10_cell_is_near",
    "C125_spe10_cell_is_right",
    "C125_spe10_neighbour_is_found",
    "C125_tarbert_interval_is_near",
    "C125_tarbert_interval_in_range",
    "C125_tarbert_neighbour_is_found",
    "C125_random_location_is_exact"
   ],
   "note": "Every arithmetic operation is rounded on its own (as on the usual machines); no overflow, underflow or infinities. Whole numbers are exact. The base two logarithm of the C++ library is a parameter: it has to lie on the right side of every double. The values read from the tables are not followed here."
  },
  {
   "property": "C126",
   "status": "proved",
   "theorems": [
    "C126_corners_are_near",
    "C126_number_of_cells",
    "C126_missing_layers",
    "C126_binary_coordinates_are_exact",
    "C126_touching_boundary_goes_wrong"
   ],
   "note": "As C125. The coordinates of the coarse cells come from the external grid; the theorems take them with an error of w coarse cells, 16 w times the number of fine cells being at most one, and the witness takes the doubles nearest to c/n, which are also what c times the rounded cell size gives. What follows from too wide cells for the solutions is not treated."
  },
  {
   "property": "C127",
   "status": "proved",
   "theorems": [
    "C127_coarse_system_has_harmonic_means",
    "C127_difference_to_the_reference",
    "C127_agree_iff",
    "C127_agree",
    "C127_affine_source"
   ],
   "note": "The hypotheses are collected in sound_interval: every coarse cell is its own local grid, all rules give the same mean of the diffusion on a fine cell (any piecewise constant diffusion, or any the rules integrate exactly), correctors are exact, boundary correctors vanish at the ends of their cell, both right hand sides integrate the source times affine functions alike. More dimensions and oversampling: C94, C109, C119 to C121 say what is known there. Exact real arithmetic."
  },
  {
   "property": "C128",
   "status": "proved",
   "theorems": [
    "C128_coarse_system_with_oversampling",
    "C128_corrected_function_rises",
    "C128_right_coefficient_iff",
    "C128_driven_by_flux",
    "C128_increments",
    "C128_agree_iff",
    "C128_whole_interval"
   ],
   "note": "The hypotheses are collected in sound_layers: grids and rules as for C127, the local grid of a coarse cell is any range of fine cells around it with both ends constrained, boundary correctors arbitrary (their change over the coarse cell appears as one term). The comparison with the reference solution is for no source and a flux at the right end; the right hand side for other sources is treated without oversampling in C127 and by C45. Exact real arithmetic."
  },
  {
   "property": "C129",
   "status": "proved",
   "theorems": [
    "C129_folded_data",
    "C129_same_folded_source",
    "C129_means",
    "C129_constant_diffusion"
   ],
   "note": "Extends C108 (constant data) to arbitrary data. Positions inside the fine cells matter only through the quadrature points; all local cells of a coarse cell have the same rules, as those of one uniform local grid. For the box grids the boundary correctors are taken to vanish and exact correctors are assumed. Exact real arithmetic."
  },
  {
   "property": "C130",
   "status": "proved",
   "theorems": [
    "C130_double_precision_scales",
    "C130_covered_cells",
    "C130_touching_covers_too_much",
    "C130_no_other_cell",
    "C130_powers_of_two",
    "C130_few_coarse_cells",
    "C130_search_finds_the_cell",
    "C130_search_fails"
   ],
   "note": "Strengthens C21, C24-C26 and C126 from exact to rounded coordinates. External and taken as usual: node k of an equidistant grid is computed as lower corner plus k times the width, the centre as mean of the ends, the map to the reference cube as quotient, tolerance 64 * 2^-52 of the containment test; the corner of a fine cell is the node."
  },
  {
   "property": "C131",
   "status": "proved",
   "theorems": [
    "C131_first_order",
    "C131_second_order",
    "C131_flow_is_of_first_order_only",
    "C131_periodic_diffusion"
   ],
   "note": "Builds on C127. One dimension, no oversampling (C128 shows what oversampling changes), exactly solved local problems; all rules give the same mean of the diffusion on every fine cell and the same moments of the source. The error is measured at the nodes of the fine grid; both functions are linear between them. The boundary correctors are not estimated, their size appears in the bound (they vanish in inner cells, C16)."
  },
  {
   "property": "C132",
   "status": "proved",
   "theorems": [
    "C132_nothing_to_correct",
    "C132_reference_solution_is_linear",
    "C132_multiscale_solution_is_linear"
   ],
   "note": "Generalises the linear case of C108 from constant diffusion to diffusion that does not change along the flow. Grids parallel to the axes with the same rule on all cells; the boundary correctors are taken with zero right hand side (no Neumann boundary, Dirichlet data enter through the coarse system, C16, C18). What happens across layers is treated in one dimension by C127, C128, C131. Exact real arithmetic."
  },
  {
   "property": "C133",
   "status": "proved",
   "theorems": [
    "C133_larger_data_at_the_ends",
    "C133_between_the_boundary_values",
    "C133_larger_source_in_uniform_cells",
    "C133_heated_and_colder"
   ],
   "note": "Builds on C127; complements C116 and C117, which compare reference solutions and correct single coarse functions in any dimension. The failing case is due to the right hand side taking the coarse test function at the coordinates of the fine cell (C127): the sum of a misplaced hat function and its corrector can be negative. One dimension, no oversampling, exactly solved local problems; the bounds on the fine grid are for the solution without boundary correctors. Exact real arithmetic."
  },
  {
   "property": "C134",
   "status": "proved",
   "theorems": [
    "C134_accuracy",
    "C134_runs_differ_by_rounding",
    "C134_reproducible_entries",
    "C134_one_thread_is_reproducible",
    "C134_exact",
    "C134_order_matters"
   ],
   "note": "Complements C124, which has exact numbers and also the assertions and additions without locks; here additions are locked and storages private. The numbers added at the quadrature points are given (they depend on the cell only, so every run has the same). Additions are rounded in any way that keeps the order and the doubles (C125); no overflow or underflow."
  },
  {
   "property": "C135",
   "status": "proved",
   "theorems": [
    "C135_faces_are_not_corrected",
    "C135_straight_on_faces",
    "C135_reference_solution_across_layers",
    "C135_flow_across_layers_is_missed"
   ],
   "note": "A limit of the method: complements C132 (flow along layers) and C127 (one dimension). All outer nodes of the local grids are constrained, as between coarse cells; the number of a fine node is computed from its coarse cell and its place in it, so the local grid is meant to be the divided coarse cell. Dirichlet data on the whole boundary for the reference solution. Exact real arithmetic."
  },
  {
   "property": "C136",
   "status": "proved",
   "theorems": [
    "C136_matrix_of_the_laplacian",
    "C136_at_least_the_smallest_diffusion",
    "C136_at_most_four_times_the_largest_diffusion",
    "C136_eigenvalues",
    "C136_coarse_residual"
   ],
   "note": "Generalises C119 from linear to all coarse functions, at the price of the factor four in the upper bound; C123 has other bounds under wrong keys. All outer nodes of the local grids are constrained and the local grid is the divided coarse cell. The rules of all orders agree on the energies of the local grid for the upper bound (C119_quadratures_agree). The upper bound is not shown to be sharp. Exact real arithmetic."
  },
  {
   "property": "C137",
   "status": "proved",
   "theorems": [
    "C137_assembled_system",
    "C137_two_runs",
    "C137_multiscale_system"
   ],
   "note": "Joins C134 (rounded additions of threads) with C120 and C136 (residual and eigenvalues). Errors of the numbers added at the quadrature points and rounding of the additions are counted; the linear solver is exact (its residual is treated by C136_coarse_residual); no overflow or underflow; the Dirichlet values are exact. The lower bound on the eigenvalues is for grids without oversampling."
  },
  {
   "property": "C138",
   "status": "proved",
   "theorems": [
    "C138_without_correctors",
    "C138_what_correctors_change",
    "C138_at_the_right_places",
    "C138_never_raised",
    "C138_never_lowered",
    "C138_checkerboard",
    "C138_more_diffusion_less_energy"
   ],
   "note": "A consequence of the place where coarse gradients are evaluated (C44), for the smallest refinement, two by two fine cells in each coarse cell; complements C119 (linear functions, any refinement) and C136 (bounds for all functions). All outer nodes of the local grids are constrained. Exact real arithmetic. That the change is -(t+l)^2/m when gradients are taken at the right places is C138_at_the_right_places, about the energy of the local system; no code computes that sum."
  },
  {
   "property": "C139",
   "status": "proved",
   "theorems": [
    "C139_opposite_corners",
    "C139_positive_entry",
    "C139_at_the_right_places",
    "C139_leaves_the_range",
    "C139_reference_stays"
   ],
   "note": "A consequence of the place where coarse gradients are evaluated (C44, C138): complements C116 (maximum principle of the reference solution) and C117 (corrected functions stay in the range of their corners). In the example the whole boundary has prescribed values, so the correctors for a prescribed flux vanish; the correctors for prescribed values are computed and vanish because the cells at the boundary are uniform. Without oversampling the printed solution has the value of the coarse part at coarse nodes. Exact real arithmetic, exact local and coarse solver."
  }
 ]
}