{
 "claims": [
  {
   "property": "C01",
   "status": "proved",
   "theorems": [
    "C01_find_in_sorted_array"
   ],
   "note": ""
  },
  {
   "property": "C02",
   "status": "proved",
   "theorems": [
    "C02_merge_pos",
    "C02_insert",
    "C02_insert_nodups",
    "C02_sorted_insert_unique",
    "C02_removeEntry",
    "C02_ind_of_max"
   ],
   "note": ""
  },
  {
   "property": "C03",
   "status": "proved",
   "theorems": [
    "C03_ApplyPermutation",
    "C03_ApplyAndKeepPermutation",
    "C03_buffered_agrees",
    "C03_InvertPermutation"
   ],
   "note": ""
  },
  {
   "property": "C04",
   "status": "proved",
   "theorems": [
    "C04_merge_two",
    "C04_merge_table",
    "C04_MergeArrays1",
    "C04_MergeArrays1_sentinel_refuted",
    "C04_reduce_table",
    "C04_MergeArrays",
    "C04_MergeArrays_queue",
    "C04_MergeArrays_negative_refuted"
   ],
   "note": "Two-array merge, k-way merge, MergeArrays1 and the hashed queue merge MergeArrays for every number of rows. The _refuted theorems record that the value INT_MAX breaks MergeArrays1 and that negative values are lost by MergeArrays."
  },
  {
   "property": "C05",
   "status": "proved",
   "theorems": [
    "C05_iterate_intersection",
    "C05_iterate_ABC",
    "C05_is_intersect_empty",
    "C05_intersect_sorted_arrays",
    "C05_iterate_anotb",
    "C05_setMinus",
    "C05_partitionAB"
   ],
   "note": ""
  },
  {
   "property": "C06",
   "status": "proved",
   "theorems": [
    "C06_posSortedInSorted",
    "C06_posSortedInSorted_missing_refuted"
   ],
   "note": "Guarantee under the subset condition, plus the refutation without it."
  },
  {
   "property": "C07",
   "status": "partial",
   "theorems": [
    "C07_pairs_and_triples",
    "C07_arrays",
    "C07_five_refuted",
    "C07_five_not_transitive_refuted",
    "C07_five_partial",
    "C07_four_refuted"
   ],
   "note": "Length 2, 3 and arrays proved. Length 5 is not asymmetric and not transitive (C07_five_refuted, C07_five_not_transitive_refuted; C07_five_partial: where it is right), the length 4 overload takes a right operand of length 3 and reads behind it (C07_four_refuted)."
  },
  {
   "property": "C08",
   "status": "proved",
   "theorems": [
    "C08_transpose_entries",
    "C08_transpose_twice",
    "C08_transpose_out_of_bounds"
   ],
   "note": ""
  },
  {
   "property": "C09",
   "status": "proved",
   "theorems": [
    "C09_product"
   ],
   "note": "For every cut of the rows into parallel tasks and every content of the uninitialised hash arrays; merge = the modelled MergeArrays."
  },
  {
   "property": "C10",
   "status": "proved",
   "theorems": [
    "C10_restrict_acts_as_PTAP",
    "C10_restrict_keep_factor"
   ],
   "note": ""
  },
  {
   "property": "C11",
   "status": "proved",
   "theorems": [
    "C11_permutation_matrix",
    "C11_embed",
    "C11_embed_out_of_bounds",
    "C11_AddSPM"
   ],
   "note": ""
  },
  {
   "property": "C12",
   "status": "partial",
   "theorems": [
    "C12_addmerge_refuted",
    "C12_addmerge_out_of_bounds_refuted",
    "C12_addmerge_scalars_ignored",
    "C12_addmerge_partial"
   ],
   "note": "False as coded: C12_*_refuted (wrong values, out-of-bounds read), C12_addmerge_scalars_ignored; C12_addmerge_partial proves the part that holds (one of the two rows empty, alpha=beta=1)."
  },
  {
   "property": "C13",
   "status": "partial",
   "theorems": [
    "C13_compress_exact",
    "C13_compress_blocks",
    "C13_compress_scalar_refuted",
    "C13_compress_scalar_partial"
   ],
   "note": "Block matrices: exactly the zero blocks are dropped (C13_compress_blocks). Scalar matrices lose negative entries (C13_compress_scalar_refuted); C13_compress_scalar_partial for non-negative entries."
  },
  {
   "property": "C14",
   "status": "partial",
   "theorems": [
    "C14_identity_actual",
    "C14_identity_refuted",
    "C14_identity_one_row_refuted",
    "C14_block_offsets_refuted"
   ],
   "note": "False as coded: every row of the identity has column 1 (C14_identity_actual, C14_identity_refuted); block assembly leaves the column offsets uninitialised (C14_block_offsets_refuted)."
  },
  {
   "property": "C15",
   "status": "proved",
   "theorems": [
    "C15_gauss_seidel_residual"
   ],
   "note": ""
  },
  {
   "property": "C16",
   "status": "proved",
   "theorems": [
    "C16_flags_do_not_change_iterate"
   ],
   "note": ""
  },
  {
   "property": "C17",
   "status": "proved",
   "theorems": [
    "C17_constrained_dofs_untouched",
    "C17_every_free_dof_once"
   ],
   "note": ""
  },
  {
   "property": "C18",
   "status": "proved",
   "theorems": [
    "C18_solution_is_fixed_point",
    "C18_fixed_point_is_solution"
   ],
   "note": "Both directions: solutions are fixed points, and (for injective diagonal inverses) fixed points are solutions."
  },
  {
   "property": "C19",
   "status": "proved",
   "theorems": [
    "C19_back_is_adjoint",
    "C19_back_is_adjoint_calls"
   ],
   "note": ""
  },
  {
   "property": "C20",
   "status": "proved",
   "theorems": [
    "C20_energy_never_increases"
   ],
   "note": ""
  },
  {
   "property": "C21",
   "status": "proved",
   "theorems": [
    "C21_block_residual",
    "C21_block_flags_do_not_change_iterate",
    "C21_block_steps",
    "C21_block_setup_total",
    "C21_dofs_outside_blocks_untouched",
    "C21_solution_is_fixed_point",
    "C21_block_back_is_adjoint",
    "C21_block_energy",
    "C21_last_block_solved"
   ],
   "note": ""
  },
  {
   "property": "C22",
   "status": "proved",
   "theorems": [
    "C22_every_block_exactly_once",
    "C22_parallel_sweep_schedule_independent",
    "C22_parallel_sweep_race_free",
    "C22_order_within_colour_irrelevant"
   ],
   "note": ""
  },
  {
   "property": "C23",
   "status": "partial",
   "theorems": [
    "C23_iterate_partial",
    "C23_overlapping_version_steps",
    "C23_residual_counts_blocks",
    "C23_residual_partial",
    "C23_declared_zero_refuted",
    "C23_overlapping_residual_refuted",
    "C23_stale_work_vector_refuted",
    "C23_back_residual_refuted",
    "C23_smooth_groups_direction_refuted",
    "C23_overlap_detected"
   ],
   "note": "False as coded, witnesses in the C23_*_refuted theorems: declared zero initial guess degrades the sweep to block Jacobi (non-overlapping version), the residual is subtracted once per block containing a dof (overlapping version), dofs in no block pick up the stale work vector, SmoothBack hands back a wrong residual, SmoothGroups ignores the direction. The parts that hold are C23_iterate_partial, C23_residual_partial, C23_overlapping_version_steps, C23_residual_counts_blocks, C23_overlap_detected."
  },
  {
   "property": "C24",
   "status": "partial",
   "theorems": [
    "C24_proxy",
    "C24_richardson",
    "C24_jacobi",
    "C24_hiptmair_forward",
    "C24_hiptmair_back_partial",
    "C24_hiptmair_adjoint",
    "C24_hiptmair_back_refuted"
   ],
   "note": "Proxy/Richardson/Jacobi/Hiptmair forward proved for all flags; the backward Hiptmair contract is false as coded (C24_hiptmair_back_refuted) and proved outside that flag combination (C24_hiptmair_back_partial)."
  },
  {
   "property": "C25",
   "status": "proved",
   "theorems": [
    "C25_cycle_is_linear"
   ],
   "note": ""
  },
  {
   "property": "C26",
   "status": "proved",
   "theorems": [
    "C26_cycle_is_symmetric",
    "C26_gauss_seidel_amg"
   ],
   "note": "V-, W- and BS-cycle, abstract smoothers honouring the contract, and end to end for Gauss-Seidel smoothers (C26_gauss_seidel_amg)."
  },
  {
   "property": "C27",
   "status": "proved",
   "theorems": [
    "C27_energy_never_increases",
    "C27_preconditioner_positive"
   ],
   "note": "V-, W- and BS-cycle; coarse solve exact or absent."
  },
  {
   "property": "C28",
   "status": "proved",
   "theorems": [
    "C28_mult_is_textbook_cycle",
    "C28_v_cycle_from_level"
   ],
   "note": ""
  },
  {
   "property": "C29",
   "status": "proved",
   "theorems": [
    "C29_history_independent",
    "C29_single_level_refuted",
    "C29_single_level_w_refuted"
   ],
   "note": "For hierarchies with at least two levels, after any history of Mult/MultAdd/CINV calls. For a single level the claim is false as coded (C29_single_level_refuted)."
  },
  {
   "property": "C30",
   "status": "partial",
   "theorems": [
    "C30_valid_partial",
    "C30_rejected_partial",
    "C30_component_refuted",
    "C30_dof_refuted",
    "C30_rank_refuted",
    "C30_negative_component_refuted",
    "C30_rejected_ranks_refuted"
   ],
   "note": "C30_valid_partial: valid requests give the unit vector on the level (its prolongation is C31); C30_rejected_partial: what is rejected. The bounds checks are off by one and incomplete, and only rank 0 returns after a rejection: C30_*_refuted."
  },
  {
   "property": "C31",
   "status": "proved",
   "theorems": [
    "C31_fine_to_coarse_is_composition",
    "C31_coarse_to_fine_is_composition",
    "C31_adjoint",
    "C31_linear",
    "C31_via_intermediate_level",
    "C31_beyond_the_last_level",
    "C31_clamped",
    "C31_add_variants"
   ],
   "note": "For every DOFMap reachable through the API, every sub-range of finalised steps (prolongations, concatenations, multi-maps, nested). Levels beyond the last one: C31_beyond_the_last_level, C31_clamped."
  },
  {
   "property": "C32",
   "status": "proved",
   "theorems": [
    "C32_galerkin_steps",
    "C32_energy",
    "C32_unfinalised_steps"
   ],
   "note": "Step by step and in total, symmetry inherited, independent of whether steps were finalised; for all cuts into parallel tasks and all contents of the uninitialised hash arrays."
  },
  {
   "property": "C33",
   "status": "proved",
   "theorems": [
    "C33_make_single_step",
    "C33_make_single_step2",
    "C33_greedy_grouping",
    "C33_unfinalised_result_refuted",
    "C33_multi_out_of_bounds_refuted"
   ],
   "note": "MakeSingleStep3 always, MakeSingleStep2 whenever it returns; the _refuted theorems record the null transpose of an unfinalised result and the out-of-bounds read for multi-maps of different length."
  },
  {
   "property": "C34",
   "status": "proved",
   "theorems": [
    "C34_before_finalize",
    "C34_after_finalize",
    "C34_use_finalises",
    "C34_empty_not_finalised",
    "C34_replace_unguarded"
   ],
   "note": ""
  },
  {
   "property": "C35",
   "status": "partial",
   "theorems": [
    "C35_distributed_to_concentrated",
    "C35_cumulate",
    "C35_messages_match",
    "C35_cumulated_idle",
    "C35_concentrate_cumulated_refuted"
   ],
   "note": "Proved for distributed vectors on every schedule (C35_distributed_to_concentrated, C35_cumulate, C35_messages_match, C35_cumulated_idle). Calling the first exchange on a vector marked cumulated is wrong (C35_concentrate_cumulated_refuted): stale receive buffers are added."
  },
  {
   "property": "C36",
   "status": "proved",
   "theorems": [
    "C36_hybrid_split"
   ],
   "note": ""
  },
  {
   "property": "C37",
   "status": "proved",
   "theorems": [
    "C37_hybrid_smoother",
    "C37_gauss_seidel",
    "C37_cumulated_rhs_refuted"
   ],
   "note": "Proved for every schedule, mode and flag combination (C37_hybrid_smoother for all stage kernels, C37_gauss_seidel for the Gauss-Seidel kernels). The residual is refuted for a cumulated right-hand side with x_zero and update_res, and for a cumulated residual (C37_cumulated_rhs_refuted). Block Gauss-Seidel and dynamic-block stage kernels are covered only through the kernel contract."
  },
  {
   "property": "C38",
   "status": "proved",
   "theorems": [
    "C38_one_step",
    "C38_gauss_seidel",
    "C38_more_steps_refuted",
    "C38_symm_loc_refuted"
   ],
   "note": ""
  },
  {
   "property": "C39",
   "status": "proved",
   "theorems": [
    "C39_jobs_once_and_in_order",
    "C39_wait_returns_after_the_job",
    "C39_submitted_as_called",
    "C39_no_deadlock",
    "C39_every_schedule_ends",
    "C39_start_without_wait_drops_a_job"
   ],
   "note": "Two-thread transition system with mutex, condition variable, spurious wake-ups and arbitrary notify_one choice; for call sequences with a WaitForThread between two StartInThread (what the smoothers do); without it a job can be dropped (C39_start_without_wait_drops_a_job)."
  },
  {
   "property": "C40",
   "status": "partial",
   "theorems": [
    "C40_join_returns_partial",
    "C40_lost_means_hang",
    "C40_shutdown_refuted"
   ],
   "note": "False as coded: C40_shutdown_refuted gives two reachable executions in which join never returns (C40_lost_means_hang). C40_join_returns_partial: in all other reachable states join returns under every schedule. Sequential consistency assumed; the unsynchronised flag writes are in addition a C++ data race."
  },
  {
   "property": "C41",
   "status": "proved",
   "theorems": [
    "C41_order",
    "C41_common",
    "C41_merged",
    "C41_find",
    "C41_common_exists"
   ],
   "note": ""
  },
  {
   "property": "C42",
   "status": "proved",
   "theorems": [
    "C42_order",
    "C42_ids",
    "C42_of_id",
    "C42_master",
    "C42_scatter"
   ],
   "note": "For every consistent family of classes on any number of ranks, through the completion: order, ids, GetEQCOfID, masters, scatter. MPI channels are FIFO per pair and tag."
  },
  {
   "property": "C43",
   "status": "proved",
   "theorems": [
    "C43_closed_under_intersection"
   ],
   "note": ""
  },
  {
   "property": "C44",
   "status": "partial",
   "theorems": [
    "C44_number_partial",
    "C44_number_refuted"
   ],
   "note": "False as coded (C44_number_refuted): the count adds the own blocks twice and one id per rank. C44_number_partial gives the exact reported number for every consistent family of classes: true number + ranks without a local class + shared classes owned by the reporting rank."
  },
  {
   "property": "C45",
   "status": "proved",
   "theorems": [
    "C45_reduce",
    "C45_classes"
   ],
   "note": "For every consistent family of rows (rows_match) on any number of ranks, lambda possibly non-deterministic (one call per row); C45_classes: one row per class of a hierarchy. MPI progress is trusted; mismatching sends/receives are errors of the model."
  },
  {
   "property": "C46",
   "status": "partial",
   "theorems": [
    "C46_partition_partial",
    "C46_serial",
    "C46_foreign",
    "C46_fixed_hanging_refuted"
   ],
   "note": "For every graph, strength oracle and sort order: C46_partition_partial (any fixed agglomerates on which no degree-one vertex hangs), C46_serial (no fixed agglomerates, one rank: exactly one). False if a degree-one vertex hangs on a vertex of a fixed agglomerate: that vertex gets into two agglomerates (C46_fixed_hanging_refuted)."
  },
  {
   "property": "C47",
   "status": "partial",
   "theorems": [
    "C47_dirichlet_partial",
    "C47_dirichlet_refuted",
    "C47_no_hanging"
   ],
   "note": "A Dirichlet vertex is agglomerated iff some participating degree-one vertex hangs on it (C47_dirichlet_partial); otherwise never (C47_no_hanging). The unconditional claim is false (C47_dirichlet_refuted)."
  },
  {
   "property": "C48",
   "status": "proved",
   "theorems": [
    "C48_vertex_map"
   ],
   "note": ""
  },
  {
   "property": "C49",
   "status": "proved",
   "theorems": [
    "C49_vertices",
    "C49_edge_map",
    "C49_agglomeration"
   ],
   "note": ""
  },
  {
   "property": "C50",
   "status": "proved",
   "theorems": [
    "C50_setup_terminates"
   ],
   "note": "For every coarsening, partitioner answer and option values with rd_min_nv_gl or rd_seq_nv positive; contraction of meshes with a free_nodes array is unimplemented in the code (throws) and excluded by hypothesis."
  },
  {
   "property": "C51",
   "status": "partial",
   "theorems": [
    "C51_max_levels_partial",
    "C51_one_level_refuted"
   ],
   "note": "Holds for max_n_levels >= 2 (C51_max_levels_partial); the values 0 and 1 are ignored (C51_one_level_refuted)."
  },
  {
   "property": "C52",
   "status": "partial",
   "theorems": [
    "C52_factor_range",
    "C52_fewer_ranks_partial",
    "C52_two_ranks_refuted",
    "C52_nan_refuted"
   ],
   "note": "Range of the factor proved (C52_factor_range); fewer ranks for more than two (C52_fewer_ranks_partial). With two ranks nothing is redistributed (C52_two_ranks_refuted); with both thresholds 0 an empty mesh leads to a NaN converted to int (C52_nan_refuted)."
  },
  {
   "property": "C53",
   "status": "partial",
   "theorems": [
    "C53_get_opt",
    "C53_from_flags",
    "C53_bool_from_flags",
    "C53_enum_from_flags",
    "C53_assign_move",
    "C53_copy_refuted",
    "C53_merge_partial",
    "C53_merge_refuted"
   ],
   "note": "GetOpt, flags, assignment and move proved. The copy constructor initialises the default with itself (C53_copy_refuted); merging loses levels when the right side specifies more of them (C53_merge_refuted, C53_merge_partial)."
  },
  {
   "property": "C54",
   "status": "proved",
   "theorems": [
    "C54_filter_blocks",
    "C54_filter_blocks_symm"
   ],
   "note": "FilterBlocks itself, for all master/shared patterns; the decision to call it is C61."
  },
  {
   "property": "C55",
   "status": "partial",
   "theorems": [
    "C55_roundtrip",
    "C55_vertex_data_partial",
    "C55_vertex_data_refuted",
    "C55_two_vertices_refuted"
   ],
   "note": "All items but the elasticity vertex data. For these SIZE_IN_BUFFER is smaller than what is written (C55_vertex_data_refuted, C55_two_vertices_refuted)."
  },
  {
   "property": "C56",
   "status": "proved",
   "theorems": [
    "C56_compressed_equals_uncompressed",
    "C56_compressed_own_diagonal_refuted"
   ],
   "note": "Equality under the stated condition plus the refutation for the other constructor."
  },
  {
   "property": "C57",
   "status": "proved",
   "theorems": [
    "C57_cinv"
   ],
   "note": ""
  },
  {
   "property": "C58",
   "status": "proved",
   "theorems": [
    "C58_amg_smoother",
    "C58_single_on_last_level_refuted"
   ],
   "note": "Contract and adjointness for all hierarchies and flags; the exception on the last smoothed level is C58_single_on_last_level_refuted."
  },
  {
   "property": "C59",
   "status": "proved",
   "theorems": [
    "C59_embedded_mult",
    "C59_embedded_symmetric",
    "C59_embedded_multadd"
   ],
   "note": ""
  },
  {
   "property": "C60",
   "status": "proved",
   "theorems": [
    "C60_block_multadd_disjoint_blocks",
    "C60_block_multadd_is_additive_schwarz",
    "C60_block_multadd_overlapping_blocks_refuted"
   ],
   "note": ""
  },
  {
   "property": "C61",
   "status": "partial",
   "theorems": [
    "C61_many_ranks_partial",
    "C61_one_rank_partial",
    "C61_two_ranks_refuted"
   ],
   "note": "Holds for one rank and for more than two; false for two working ranks (C61_two_ranks_refuted): the test in the constructor is the inverse of the one in EQCHierarchy."
  },
  {
   "property": "C62",
   "status": "proved",
   "theorems": [
    "C62_groups"
   ],
   "note": ""
  },
  {
   "property": "C63",
   "status": "proved",
   "theorems": [
    "C63_ranks_agree"
   ],
   "note": ""
  },
  {
   "property": "C64",
   "status": "partial",
   "theorems": [
    "C64_goal_missed_partial",
    "C64_slow_coarsening_refuted"
   ],
   "note": "Missed goal: C64_goal_missed_partial. Slow coarsening: the coarse mesh is discarded and the setup ends (C64_slow_coarsening_refuted), although the option is documented to trigger redistribution."
  },
  {
   "property": "C65",
   "status": "proved",
   "theorems": [
    "C65_from_dofs",
    "C65_from_mesh_refuted"
   ],
   "note": ""
  },
  {
   "property": "C66",
   "status": "proved",
   "theorems": [
    "C66_redistribution_transfers"
   ],
   "note": ""
  },
  {
   "property": "C67",
   "status": "proved",
   "theorems": [
    "C67_contracted_matrix"
   ],
   "note": ""
  },
  {
   "property": "C68",
   "status": "proved",
   "theorems": [
    "C68_swap_with_prolongation",
    "C68_swap_after_set_up_refuted"
   ],
   "note": ""
  },
  {
   "property": "C69",
   "status": "proved",
   "theorems": [
    "C69_convert_mult",
    "C69_given_columns",
    "C69_blocks",
    "C69_unsymmetric_pattern_refuted"
   ],
   "note": "C69_convert_mult, C69_given_columns, C69_blocks; C69_unsymmetric_pattern_refuted shows that the symmetric pattern is needed. QuickSort enters through its contract only (any permutation sorted by the comparison). MultTrans and the product of two such matrices always throw and are not modelled."
  },
  {
   "property": "C70",
   "status": "proved",
   "theorems": [
    "C70_setup_total",
    "C70_residual",
    "C70_flags_do_not_change_iterate",
    "C70_constrained_dofs_untouched",
    "C70_solution_is_fixed_point",
    "C70_back_is_adjoint"
   ],
   "note": "Sequential code with exact arithmetic. Constrained dofs and fixed points need an exact two-sided inverse of the fixed diagonal blocks, the adjoint needs the inverse to keep symmetry. Empty rows are covered only with a free dof array given (without one the code multiplies with a 0x0 diagonal block)."
  },
  {
   "property": "C71",
   "status": "proved",
   "theorems": [
    "C71_solve",
    "C71_mult",
    "C71_amg_iteration",
    "C71_fresh_solver_refuted",
    "C71_no_error_computed"
   ],
   "note": ""
  },
  {
   "property": "C72",
   "status": "proved",
   "theorems": [
    "C72_transformation",
    "C72_products",
    "C72_stored_products",
    "C72_edge_contribution",
    "C72_midpoint_weight",
    "C72_scaled_transformation_refuted",
    "C72_qmqt_3d_refuted",
    "C72_setqtmq_refuted"
   ],
   "note": ""
  },
  {
   "property": "C73",
   "status": "proved",
   "theorems": [
    "C73_smoothed_rows",
    "C73_kernel_preserved",
    "C73_improvement",
    "C73_auxiliary_rows",
    "C73_piecewise",
    "C73_diagonal_weight",
    "C73_scalar_diagonal_positive",
    "C73_row_limit_refuted"
   ],
   "note": ""
  },
  {
   "property": "C74",
   "status": "proved",
   "theorems": [
    "C74_edge_connectivity",
    "C74_auxiliary_matrix",
    "C74_h1",
    "C74_boost",
    "C74_boost_repeated_refuted"
   ],
   "note": ""
  },
  {
   "property": "C75",
   "status": "proved",
   "theorems": [
    "C75_h1_edge_weights",
    "C75_h1_vertex_weights",
    "C75_h1_energy"
   ],
   "note": ""
  },
  {
   "property": "C76",
   "status": "proved",
   "theorems": [
    "C76_reverse_map",
    "C76_concatenation",
    "C76_data_in_two_steps"
   ],
   "note": ""
  },
  {
   "property": "C77",
   "status": "partial",
   "theorems": [
    "C77_edges_partial",
    "C77_energy_partial",
    "C77_centre_refuted",
    "C77_ground_refuted",
    "C77_shared_refuted"
   ],
   "note": "C77_edges_partial (coarse edge matrices and ground weights, any vertex placement, ground edges only when the dropped-edge end is placed at the coarse vertex), C77_energy_partial (total energy, one process, centres at the lowest numbered member and no ground edges away from the centre). The rest of the statement is false: C77_centre_refuted, C77_ground_refuted, C77_shared_refuted."
  },
  {
   "property": "C78",
   "status": "proved",
   "theorems": [
    "C78_choice",
    "C78_scalar_robust_pick_refuted",
    "C78_negative_threshold_refuted"
   ],
   "note": "C78_choice for every sorting routine (contract) and all strengths on rationals; the two exceptions of the statement are C78_scalar_robust_pick_refuted and C78_negative_threshold_refuted."
  },
  {
   "property": "C79",
   "status": "partial",
   "theorems": [
    "C79_agglomerates",
    "C79_no_shared_vertex_refuted"
   ],
   "note": "C79_agglomerates is the full statement for serial runs and for processes of a parallel run with at least one shared class; without shared vertex it is false (C79_no_shared_vertex_refuted). Strengths of connection are arbitrary functions; the maps of the SPW data between rounds are not modelled."
  },
  {
   "property": "C80",
   "status": "partial",
   "theorems": [
    "C80_intermediate_graph",
    "C80_edges_once_partial",
    "C80_edges_once_refuted"
   ],
   "note": "C80_intermediate_graph; that every edge is listed once only for coarse vertices with two or more members (C80_edges_once_partial), false otherwise (C80_edges_once_refuted)."
  },
  {
   "property": "C81",
   "status": "partial",
   "theorems": [
    "C81_centre_on_top_partial",
    "C81_orphan_round_refuted"
   ],
   "note": "C81_centre_on_top_partial: any number of rounds without orphan round; false with it (C81_orphan_round_refuted)."
  },
  {
   "property": "C82",
   "status": "proved",
   "theorems": [
    "C82_any_loop",
    "C82_even_loop",
    "C82_ring",
    "C82_local_ring",
    "C82_local_even",
    "C82_missing_edge",
    "C82_touching_rings_refuted"
   ],
   "note": "C82_any_loop, C82_even_loop, C82_ring for tuples, C82_local_ring, C82_local_even, C82_missing_edge for signed edge numbers; the exception of the statement is C82_touching_rings_refuted."
  },
  {
   "property": "C83",
   "status": "proved",
   "theorems": [
    "C83_split_closed",
    "C83_split_open",
    "C83_split_open_repeated",
    "C83_simple_loops",
    "C83_nonpositive_id_never_ends",
    "C83_split_open_refuted"
   ],
   "note": "C83_simple_loops, C83_split_closed, C83_split_open, C83_split_open_repeated, C83_nonpositive_id_never_ends; the exception of the statement is C83_split_open_refuted."
  },
  {
   "property": "C84",
   "status": "proved",
   "theorems": [
    "C84_same_cycle",
    "C84_direction",
    "C84_open",
    "C84_empty",
    "C84_same_form_refuted",
    "C84_same_form"
   ],
   "note": "C84_same_cycle, C84_direction, C84_same_form, C84_open, C84_empty; the exception of the statement is C84_same_form_refuted."
  },
  {
   "property": "C85",
   "status": "proved",
   "theorems": [
    "C85_flow",
    "C85_local_part",
    "C85_dropped_next_to_kept"
   ],
   "note": ""
  },
  {
   "property": "C86",
   "status": "proved",
   "theorems": [
    "C86_same_on_all_processes",
    "C86_duplicates",
    "C86_signed_edges",
    "C86_closed",
    "C86_tables_fit",
    "C86_local_duplicates_refuted"
   ],
   "note": ""
  },
  {
   "property": "C87",
   "status": "proved",
   "theorems": [
    "C87_shrink",
    "C87_add_loops",
    "C87_fits_again"
   ],
   "note": ""
  },
  {
   "property": "C88",
   "status": "proved",
   "theorems": [
    "C88_blocks",
    "C88_together"
   ],
   "note": ""
  },
  {
   "property": "C89",
   "status": "proved",
   "theorems": [
    "C89_numbering",
    "C89_no_ghosts",
    "C89_shared",
    "C89_fits"
   ],
   "note": ""
  },
  {
   "property": "C90",
   "status": "proved",
   "theorems": [
    "C90_ghosts",
    "C90_one_owner",
    "C90_edges"
   ],
   "note": ""
  },
  {
   "property": "C91",
   "status": "proved",
   "theorems": [
    "C91_message",
    "C91_duplicates"
   ],
   "note": ""
  },
  {
   "property": "C92",
   "status": "proved",
   "theorems": [
    "C92_loops",
    "C92_direction",
    "C92_fits"
   ],
   "note": ""
  },
  {
   "property": "C93",
   "status": "proved",
   "theorems": [
    "C93_ghosts",
    "C93_unknowns",
    "C93_flips"
   ],
   "note": ""
  },
  {
   "property": "C94",
   "status": "proved",
   "theorems": [
    "C94_groups"
   ],
   "note": ""
  },
  {
   "property": "C95",
   "status": "proved",
   "theorems": [
    "C95_classes",
    "C95_consistent",
    "C95_closed_refuted"
   ],
   "note": ""
  },
  {
   "property": "C96",
   "status": "proved",
   "theorems": [
    "C96_vertices",
    "C96_agree"
   ],
   "note": ""
  },
  {
   "property": "C97",
   "status": "proved",
   "theorems": [
    "C97_edges",
    "C97_closed_refuted"
   ],
   "note": ""
  },
  {
   "property": "C98",
   "status": "proved",
   "theorems": [
    "C98_mesh"
   ],
   "note": ""
  },
  {
   "property": "C99",
   "status": "proved",
   "theorems": [
    "C99_cumulate",
    "C99_distribute",
    "C99_round",
    "C99_nothing"
   ],
   "note": ""
  },
  {
   "property": "C100",
   "status": "proved",
   "theorems": [
    "C100_cumulated",
    "C100_distributed",
    "C100_commute"
   ],
   "note": ""
  },
  {
   "property": "C101",
   "status": "proved",
   "theorems": [
    "C101_cumulated",
    "C101_distributed",
    "C101_refuted"
   ],
   "note": "C101_cumulated, C101_distributed (both cases with the exact factor); the exception of the statement is witnessed by C101_refuted."
  },
  {
   "property": "C102",
   "status": "proved",
   "theorems": [
    "C102_numbering",
    "C102_sub",
    "C102_contract"
   ],
   "note": ""
  },
  {
   "property": "C103",
   "status": "proved",
   "theorems": [
    "C103_factor",
    "C103_zero_flow"
   ],
   "note": ""
  },
  {
   "property": "C104",
   "status": "proved",
   "theorems": [
    "C104_coarse_facets"
   ],
   "note": ""
  },
  {
   "property": "C105",
   "status": "proved",
   "theorems": [
    "C105_scatter",
    "C105_agree",
    "C105_undo"
   ],
   "note": ""
  },
  {
   "property": "C106",
   "status": "proved",
   "theorems": [
    "C106_numbering",
    "C106_relevant",
    "C106_active",
    "C106_active_lowest",
    "C106_active_refuted"
   ],
   "note": "C106_numbering, C106_relevant, C106_active, C106_active_lowest; the exception of the statement is witnessed by C106_active_refuted."
  },
  {
   "property": "C107",
   "status": "proved",
   "theorems": [
    "C107_loop2D",
    "C107_loop3D",
    "C107_iterate",
    "C107_at_most_one",
    "C107_owner",
    "C107_lost",
    "C107_refuted"
   ],
   "note": ""
  },
  {
   "property": "C108",
   "status": "proved",
   "theorems": [
    "C108_tables",
    "C108_out"
   ],
   "note": ""
  }
 ]
}