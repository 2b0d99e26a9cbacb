{
 "claims": [
  {
   "property": "C01",
   "status": "proved",
   "theorems": [
    "C01_local_size_counts_owned",
    "C01_local_sizes_sum_to_N",
    "C01_replicated_sizes_agree"
   ],
   "note": ""
  },
  {
   "property": "C02",
   "status": "proved",
   "theorems": [
    "C02_tables_are_local_global_bijection",
    "C02_owned_ascending",
    "C02_every_index_on_exactly_one_process",
    "C02_replicated_blocks_agree"
   ],
   "note": ""
  },
  {
   "property": "C03",
   "status": "proved",
   "theorems": [
    "C03_ctor_out_of_bounds_iff_no_block",
    "C03_all_processes_safe_iff_enough_blocks",
    "C03_small_matrix_refuted"
   ],
   "note": "C03_small_matrix_refuted: fails when a process owns no block."
  },
  {
   "property": "C04",
   "status": "proved",
   "theorems": [
    "C04_auto_block_partition_iff",
    "C04_auto_block_enough_rows",
    "C04_last_size_wraps",
    "C04_auto_block_partition_refuted"
   ],
   "note": "C04_auto_block_partition_refuted: the automatic block size can leave a negative last length."
  },
  {
   "property": "C05",
   "status": "proved",
   "theorems": [
    "C05_user_block_partition_iff",
    "C05_block_size_same_on_every_rank",
    "C05_ownership_rule_iff",
    "C05_replicated_tables_agree"
   ],
   "note": ""
  },
  {
   "property": "C06",
   "status": "proved",
   "theorems": [
    "C06_grid_bijection",
    "C06_communicator_ranks",
    "C06_blacs_map_is_column_communicator",
    "C06_nccl_ids_match_communicators"
   ],
   "note": ""
  },
  {
   "property": "C07",
   "status": "proved",
   "theorems": [
    "C07_schedule_moves_every_row_once",
    "C07_local_position",
    "C07_redistribution_delivers",
    "C07_packed_redistribution_delivers",
    "C07_packed_redistribution_in_bounds_iff",
    "C07_same_layout_delivers",
    "C07_block_layout_is_single_round_cyclic",
    "C07_nonzero_source_refuted",
    "C07_long_last_piece_refuted"
   ],
   "note": "C07_nonzero_source_refuted: false for nonzero source processes when the layouts differ."
  },
  {
   "property": "C08",
   "status": "proved",
   "theorems": [
    "C08_scatter_places_every_row",
    "C08_gather_block_cyclic",
    "C08_gather_block",
    "C08_gather_undoes_scatter",
    "C08_scatter_undoes_gather",
    "C08_block_gather_undoes_scatter",
    "C08_block_scatter_undoes_gather"
   ],
   "note": ""
  },
  {
   "property": "C09",
   "status": "proved",
   "theorems": [
    "C09_hemm_from_rows",
    "C09_hemm_from_rows_any_matrix",
    "C09_hemm_from_columns"
   ],
   "note": ""
  },
  {
   "property": "C10",
   "status": "proved",
   "theorems": [
    "C10_sequential_shift_is_the_diagonal",
    "C10_block_cyclic_shift_is_the_global_diagonal",
    "C10_block_shift_is_the_global_diagonal"
   ],
   "note": ""
  },
  {
   "property": "C11",
   "status": "proved",
   "theorems": [
    "C11_matrix_changes_only_by_shift_pairs",
    "C11_matrix_unchanged_exact",
    "C11_matrix_unchanged_ieee_refuted",
    "C11_matrix_drift_ieee"
   ],
   "note": "Exact arithmetic: unchanged. IEEE formats: drift bounded by ((1+u)^(2*iterations)-1)(|h_ii| + largest interval centre) (C11_matrix_drift_ieee; uses the axioms of Coq's Reals, listed in DESIGN.md); C11_matrix_unchanged_ieee_refuted shows the binary64 loss."
  },
  {
   "property": "C12",
   "status": "proved",
   "theorems": [
    "C12_filter_is_columnwise_recurrence",
    "C12_filter_is_scaled_chebyshev",
    "C12_filter_is_scaled_chebyshev_inplace",
    "C12_denominators_nonzero",
    "C12_eigencomponents_scaled"
   ],
   "note": ""
  },
  {
   "property": "C13",
   "status": "proved",
   "theorems": [
    "C13_bounded_inside",
    "C13_above_one_below_interval",
    "C13_grows_with_degree",
    "C13_grows_with_distance",
    "C13_wanted_dominates_unwanted",
    "C13_geometric_damping",
    "C13_even_degree_keeps_sign"
   ],
   "note": ""
  },
  {
   "property": "C14",
   "status": "proved",
   "theorems": [
    "C14_filter_multiplies_each_column_by_its_degree",
    "C14_counter_is_sum_of_degrees"
   ],
   "note": ""
  },
  {
   "property": "C15",
   "status": "proved",
   "theorems": [
    "C15_filter_in_bounds",
    "C15_filter_out_of_bounds",
    "C15_low_degree_solve_undefined"
   ],
   "note": ""
  },
  {
   "property": "C16",
   "status": "proved",
   "theorems": [
    "C16_degrees_are_a_joint_permutation",
    "C16_degrees_even_bounded_and_maximum_returned"
   ],
   "note": ""
  },
  {
   "property": "C17",
   "status": "proved",
   "theorems": [
    "C17_locking_longest_accepted_prefix",
    "C17_locking_permutes_jointly",
    "C17_unsorted_locks_unchecked_refuted",
    "C17_ties_lock_unchecked_refuted"
   ],
   "note": "Needs sorted Ritz values without ties; the two refuted theorems show why."
  },
  {
   "property": "C18",
   "status": "proved",
   "theorems": [
    "C18_incomparable_residuals_are_locked"
   ],
   "note": ""
  },
  {
   "property": "C19",
   "status": "proved",
   "theorems": [
    "C19_own_history_without_degree_optimisation",
    "C19_improving_pair_locked_refuted"
   ],
   "note": "C19_improving_pair_locked_refuted: false with degree optimisation."
  },
  {
   "property": "C20",
   "status": "proved",
   "theorems": [
    "C20_bookkeeping_at_exit",
    "C20_bookkeeping_in_every_state",
    "C20_call_protocol",
    "C20_logging_is_transparent"
   ],
   "note": ""
  },
  {
   "property": "C21",
   "status": "proved",
   "theorems": [
    "C21_solve_memory_safe"
   ],
   "note": ""
  },
  {
   "property": "C22",
   "status": "proved",
   "theorems": [
    "C22_locked_pairs_immutable_seq",
    "C22_locked_pairs_immutable_mpi",
    "C22_locked_pairs_immutable_inplace"
   ],
   "note": ""
  },
  {
   "property": "C23",
   "status": "proved",
   "theorems": [
    "C23_results_ascending_and_paired_seq",
    "C23_results_ascending_and_paired_inplace"
   ],
   "note": ""
  },
  {
   "property": "C24",
   "status": "proved",
   "theorems": [
    "C24_residuals_paired_when_locked_in_order",
    "C24_residual_stays_in_place_seq",
    "C24_residual_stays_in_place_inplace",
    "C24_residuals_unpaired_refuted"
   ],
   "note": "C24_residuals_unpaired_refuted: residuals can be attributed to another pair."
  },
  {
   "property": "C25",
   "status": "proved",
   "theorems": [
    "C25_swap_seq_exchanges_columns",
    "C25_swap_inplace_exchanges_columns",
    "C25_swap_mpi_is_identity_refuted",
    "C25_mpi_pairs_broken_refuted"
   ],
   "note": "The distributed Swap does nothing (C25_swap_mpi_is_identity_refuted)."
  },
  {
   "property": "C26",
   "status": "proved",
   "theorems": [
    "C26_user_buffer_by_parity",
    "C26_odd_iterations_lose_vectors_refuted"
   ],
   "note": "C26_odd_iterations_lose_vectors_refuted: holds for even iteration counts only."
  },
  {
   "property": "C27",
   "status": "proved",
   "theorems": [
    "C27_seq_buffers_large_enough",
    "C27_seq_overflow_when_nex_exceeds_nev",
    "C27_mpi_inplace_buffers_large_enough"
   ],
   "note": ""
  },
  {
   "property": "C28",
   "status": "proved",
   "theorems": [
    "C28_qr_selection_table",
    "C28_qr_selection_unique",
    "C28_nan_estimate_selects_cholqr2"
   ],
   "note": ""
  },
  {
   "property": "C29",
   "status": "proved",
   "theorems": [
    "C29_qr_preserves_locked_columns",
    "C29_qr_preserves_locked_columns_inplace",
    "C29_inplace_late_failure_overwrites",
    "C29_inplace_refuted"
   ],
   "note": "C29_inplace_refuted: the in-place backend needs the second factorisation to succeed."
  },
  {
   "property": "C30",
   "status": "proved",
   "theorems": [
    "C30_hermitian_matrices_accepted",
    "C30_verdict_iff",
    "C30_sequential_verdict",
    "C30_only_hermitian_accepted_refuted"
   ],
   "note": "C30_only_hermitian_accepted_refuted: the test has false positives."
  },
  {
   "property": "C31",
   "status": "proved",
   "theorems": [
    "C31_rejected_matrix_untouched",
    "C31_early_return_iff_rejected",
    "C31_rejected_only_checks",
    "C31_rejected_keeps_old_performance_data"
   ],
   "note": ""
  },
  {
   "property": "C32",
   "status": "proved",
   "theorems": [
    "C32_sequential_mirror",
    "C32_sequential_hermitian_iff",
    "C32_grid_mirror",
    "C32_leading_dimension_refuted",
    "C32_source_refuted",
    "C32_sequential_passes_check",
    "C32_grid_passes_check"
   ],
   "note": "Needs packed storage and source (0,0); see the refuted theorems."
  },
  {
   "property": "C33",
   "status": "proved",
   "theorems": [
    "C33_getters_return_last_written_value",
    "C33_degrees_always_even"
   ],
   "note": ""
  },
  {
   "property": "C34",
   "status": "proved",
   "theorems": [
    "C34_default_table",
    "C34_defaults_meet_solver_preconditions",
    "C34_solver_preconditions_after_any_history"
   ],
   "note": ""
  },
  {
   "property": "C35",
   "status": "proved",
   "theorems": [
    "C35_decorator_transparent",
    "C35_counters_report_this_run",
    "C35_block_sizes",
    "C35_timers_balanced",
    "C35_section_times_within_total"
   ],
   "note": ""
  },
  {
   "property": "C36",
   "status": "proved",
   "theorems": [
    "C36_print_reports_accumulate",
    "C36_print_unbalanced_undefined",
    "C36_print_idempotent_iff_no_time",
    "C36_print_idempotent_refuted"
   ],
   "note": "C36_print_idempotent_refuted."
  },
  {
   "property": "C37",
   "status": "proved",
   "theorems": [
    "C37_lanczos_defined_iff",
    "C37_reads_before_array_refuted",
    "C37_writes_before_array_refuted",
    "C37_bound_uninitialised_refuted"
   ],
   "note": "Memory errors are exhibited by the refuted theorems; the others give the conditions without them."
  },
  {
   "property": "C38",
   "status": "proved",
   "theorems": [
    "C38_lanczos_initialises_and_permutes"
   ],
   "note": ""
  },
  {
   "property": "C39",
   "status": "proved",
   "theorems": [
    "C39_bound_of_all_runs",
    "C39_bound_of_single_run",
    "C39_bounds_the_spectrum_refuted"
   ],
   "note": "C39_bounds_the_spectrum_refuted."
  },
  {
   "property": "C40",
   "status": "proved",
   "theorems": [
    "C40_safe_iff_legal_history",
    "C40_illegal_call_is_undefined",
    "C40_solve_configuration",
    "C40_handles_independent",
    "C40_leak_count"
   ],
   "note": ""
  },
  {
   "property": "C41",
   "status": "proved",
   "theorems": [
    "C41_block_file_read",
    "C41_block_cyclic_file_read",
    "C41_leading_dimension_refuted"
   ],
   "note": "C41_leading_dimension_refuted."
  },
  {
   "property": "C42",
   "status": "proved",
   "theorems": [
    "C42_block_cyclic_file_written",
    "C42_written_file_is_readable",
    "C42_block_file_written",
    "C42_block_cyclic_roundtrip",
    "C42_block_roundtrip",
    "C42_column_major_refuted",
    "C42_source_refuted",
    "C42_large_local_block"
   ],
   "note": "Row-major grid, source (0,0); see the refuted theorems."
  },
  {
   "property": "C43",
   "status": "proved",
   "theorems": [
    "C43_programs_complete",
    "C43_tables_exist",
    "C43_block_programs_complete",
    "C43_block_is_cyclic_with_one_block",
    "C43_automatic_blocks_iff"
   ],
   "note": "Block-cyclic and block (one piece per process) distributions. blocks_packable/packable: rows and columns dealt out alike, or equally many rows on every process row (C07)."
  },
  {
   "property": "C44",
   "status": "proved",
   "theorems": [
    "C44_count_exact_iff",
    "C44_whole_block_reduced_iff",
    "C44_nccl_count_exact_iff"
   ],
   "note": ""
  },
  {
   "property": "C45",
   "status": "proved",
   "theorems": [
    "C45_cholqr1",
    "C45_cholqr2",
    "C45_shifted_cholqr2"
   ],
   "note": ""
  },
  {
   "property": "C46",
   "status": "proved",
   "theorems": [
    "C46_rayleigh_ritz",
    "C46_zero_residual"
   ],
   "note": ""
  },
  {
   "property": "C47",
   "status": "proved",
   "theorems": [
    "C47_degree_becomes_zero_iff",
    "C47_zero_or_minus_one_degree_undefined"
   ],
   "note": ""
  },
  {
   "property": "C48",
   "status": "proved",
   "theorems": [
    "C48_solve_on_grid",
    "C48_solve_on_blocks",
    "C48_solver_is_a_program"
   ],
   "note": "Both distributions; in exact arithmetic of a commutative ring."
  },
  {
   "property": "C49",
   "status": "proved",
   "theorems": [
    "C49_seq_dependent_columns_refuted",
    "C49_mpi_block_orthonormal",
    "C49_seq_block_orthonormal"
   ],
   "note": "Exact arithmetic. On Seq the shifted Cholesky QR must not meet a failing second factorisation; C49_seq_dependent_columns_refuted shows why."
  },
  {
   "property": "C50",
   "status": "proved",
   "theorems": [
    "C50_values_within_residual_of_spectrum",
    "C50_mpi_values_within_residual_of_spectrum"
   ],
   "note": "Exact arithmetic. Mpi: up to one permutation common to columns and residuals, for ascending Rayleigh-Ritz values and a sort that does not move ascending keys (std::sort may move equal keys, which on Mpi would separate residuals from columns)."
  },
  {
   "property": "C51",
   "status": "proved",
   "theorems": [
    "C51_as_many_eigenvalues_as_values",
    "C51_mpi_as_many_eigenvalues_as_values"
   ],
   "note": "Exact arithmetic; Mpi under the conditions of C50."
  },
  {
   "property": "C52",
   "status": "proved",
   "theorems": [
    "C52_gpu_results_ascending_and_paired",
    "C52_gpu_residuals_paired_when_locked_in_order",
    "C52_gpu_host_data"
   ],
   "note": "cuBLAS, cuSOLVER and the kernels are oracles; operations take effect in program order. no_late_shift: no plain factorisation fails directly after a successful shifted one."
  },
  {
   "property": "C53",
   "status": "proved",
   "theorems": [
    "C53_gpu_locked_pairs_immutable",
    "C53_gpu_buffers_large_enough",
    "C53_gpu_late_failure_reported_refuted"
   ],
   "note": "Safety under the hypotheses of C27 (approximate start vectors, at least two Lanczos steps possible)."
  },
  {
   "property": "C54",
   "status": "proved",
   "theorems": [
    "C54_gpu_result_independent",
    "C54_gpu_start_vectors_used_refuted"
   ],
   "note": "Non-interference by simulation with a bare device; the refuted part is the use of the caller's start vectors."
  },
  {
   "property": "C55",
   "status": "proved",
   "theorems": [
    "C55_lanczos_runs_are_separate",
    "C55_gpu_single_vector",
    "C55_gpu_several_vectors_refuted"
   ],
   "note": "CPU backends share one model of mLanczos; the GPU routine is modelled separately."
  },
  {
   "property": "C56",
   "status": "proved",
   "theorems": [
    "C56_shift_is_the_diagonal",
    "C56_shift_of_large_matrices_refuted",
    "C56_launches_end"
   ],
   "note": "C56_shift_of_large_matrices_refuted: n >= 46341. Every load, store and atomic is one step; sequential consistency per element."
  },
  {
   "property": "C57",
   "status": "proved",
   "theorems": [
    "C57_block_cyclic_gpu_shift",
    "C57_block_gpu_shift"
   ],
   "note": "The offset tables are modelled as built on the host; their upload is not."
  },
  {
   "property": "C58",
   "status": "proved",
   "theorems": [
    "C58_random_vectors_are_filled",
    "C58_long_random_vectors_refuted"
   ],
   "note": "C58_long_random_vectors_refuted. The generator is an oracle; complex entries get the same number as real and imaginary part."
  },
  {
   "property": "C59",
   "status": "proved",
   "theorems": [
    "C59_lacpy_copies",
    "C59_last_row_lost_refuted",
    "C59_triangle_refuted"
   ],
   "note": "C59_last_row_lost_refuted, C59_triangle_refuted (modes U and L are not used by the library)."
  },
  {
   "property": "C60",
   "status": "proved",
   "theorems": [
    "C60_residual_kernel",
    "C60_residuals_with_exact_addition"
   ],
   "note": "Arithmetic on elements is arbitrary in the first theorem, exact in the second; n*lda at most 2^32."
  },
  {
   "property": "C61",
   "status": "proved",
   "theorems": [
    "C61_trace_is_added_to_the_result_cell",
    "C61_trace_of_uninitialised_cell_refuted",
    "C61_cell_accumulates_over_calls",
    "C61_later_calls_refuted"
   ],
   "note": "C61_trace_of_uninitialised_cell_refuted. Exact addition: with rounding the value depends on the order of the atomic additions."
  },
  {
   "property": "C62",
   "status": "proved",
   "theorems": [
    "C62_mgpu_same_as_cpu",
    "C62_mgpu_locked_pairs_immutable",
    "C62_mgpu_buffers_large_enough"
   ],
   "note": "Build without CUDA_AWARE and without HAS_SCALAPACK. cuBLAS/cuSOLVER are the same oracles as the CPU libraries."
  },
  {
   "property": "C63",
   "status": "proved",
   "theorems": [
    "C63_scalapack_build_same_as_cpu_refuted",
    "C63_scalapack_build_fresh_object_undefined"
   ],
   "note": "C63_scalapack_build_same_as_cpu_refuted: false for this code; the universal statement about fresh objects is C63_scalapack_build_fresh_object_undefined."
  },
  {
   "property": "C64",
   "status": "proved",
   "theorems": [
    "C64_cuda_aware_cholesky_qr_undefined",
    "C64_cuda_aware_cholesky_solve_undefined",
    "C64_cuda_aware_ignores_start_vectors_and_qr",
    "C64_cuda_aware_vectors_normalised_refuted",
    "C64_cuda_aware_scalapack_householder_same_as_cpu"
   ],
   "note": "The claim is false for this code; the theorems say for all inputs what happens instead."
  },
  {
   "property": "C65",
   "status": "proved",
   "theorems": [
    "C65_lowest_eigenvalue_returned_refuted",
    "C65_sums_between_extreme_eigenvalues",
    "C65_mpi_sums_between_extreme_eigenvalues"
   ],
   "note": "Exact arithmetic, Seq and Mpi (the latter under the conditions of C50). The lower bound for every subset needs orthonormal vectors across iterations (C49) and values that are Rayleigh quotients (C50); the refutation is a concrete run."
  },
  {
   "property": "C66",
   "status": "proved",
   "theorems": [
    "C66_memory_is_used_correctly",
    "C66_undefined_iff",
    "C66_one_solve_is_safe",
    "C66_second_solve_refuted",
    "C66_properties_can_be_shared_refuted"
   ],
   "note": "Buffers and use counts, not contents; allocation failure is outside. Invariant: use count = number of handles, one owner per live buffer. Two refutations are findings."
  },
  {
   "property": "C67",
   "status": "proved",
   "theorems": [
    "C67_left_over",
    "C67_left_over_by_a_solve",
    "C67_no_leaks_refuted",
    "C67_clean_calls"
   ],
   "note": "Exact count by the same invariant; the per-call amounts are the specification. The refutation holds for every backend after any Lanczos run. Handles of CUDA libraries and MPI datatypes are not counted."
  },
  {
   "property": "C68",
   "status": "proved",
   "theorems": [
    "C68_all_operations",
    "C68_filter_operations",
    "C68_filter_within_total",
    "C68_counts_of_a_solve",
    "C68_counts_of_large_problems_refuted",
    "C68_total_undefined_refuted"
   ],
   "note": "size_t modulo 2^64 and IEEE binary64 (Flocq), so the theorems use the axioms of the standard library's real numbers. The two refutations are computed with the executable float model."
  },
  {
   "property": "C69",
   "status": "proved",
   "theorems": [
    "C69_program_order",
    "C69_nonblocking_stream_refuted",
    "C69_async_solve",
    "C69_schedules_agree",
    "C69_async_results_ascending_and_paired",
    "C69_multi_gpu_product",
    "C69_cuda_aware_mpi_depends_on_timing",
    "C69_cuda_aware_mpi_refuted"
   ],
   "note": "Adversarial scheduler over streams with legacy-default-stream ordering. The positive solve theorems are carried over from C52-C53 by a one-sided simulation; numeric results of library calls are functions of their inputs. cudaMemcpy from pageable host memory is taken as synchronous with respect to the host buffer."
  },
  {
   "property": "C70",
   "status": "proved",
   "theorems": [
    "C70_grid_ends_with_eigenpairs",
    "C70_fixed_degree_grid_ends_with_eigenpairs",
    "C70_blocks_end_with_eigenpairs",
    "C70_fixed_degree_blocks_end_with_eigenpairs"
   ],
   "note": "Joins the program-level simulation of C48 (message passing, index arithmetic, packing) to the spectral theorems of C50, C51 and C65 through a relation between states of kernels over entry functions and over mathcomp matrices. LAPACK enters through a record of the documented effects (QR, Cholesky, triangular solve, Hermitian eigenproblem), shown inhabited over the complex numbers of any real closed field. Exact arithmetic; the values must be found in ascending order as in C65 (the sort keeps an ascending list)."
  },
  {
   "property": "C71",
   "status": "proved",
   "theorems": [
    "C71_serial_arguments_arrive",
    "C71_block_arguments_arrive",
    "C71_block_cyclic_arguments_arrive",
    "C71_solve_arguments_arrive",
    "C71_finalize",
    "C71_declarations_agree_iff",
    "C71_eigenvalues_read_back_iff",
    "C71_single_complex_eigenvalues_refuted"
   ],
   "note": "Byte memory with inaccessible addresses; little endian two's complement integers; declared and implemented argument types as tables read off the two files. The mismatch of the file routines (h declared REAL for complex matrices) only concerns the declared type of an address."
  },
  {
   "property": "C72",
   "status": "proved",
   "theorems": [
    "C72_grid_major_iff",
    "C72_grid_as_requested",
    "C72_column_major_refuted",
    "C72_places_distinct_refuted",
    "C72_file_name_iff"
   ],
   "note": "strcmp and the C string constructor on byte memory; an inaccessible byte is undefined behaviour."
  },
  {
   "property": "C73",
   "status": "proved",
   "theorems": [
    "C73_arrays_hold_extra_values",
    "C73_documented_length_refuted"
   ],
   "note": "On the model of the whole algorithm of C14-C21, for every backend."
  },
  {
   "property": "C74",
   "status": "proved",
   "theorems": [
    "C74_mpi_vectors_converge",
    "C74_mpi_values_converge",
    "C74_seq_vectors_converge",
    "C74_seq_values_converge"
   ],
   "note": "Runs in which no pair is locked before the last iteration (the states in between are quantified, the last iteration may lock); lambda < lowerb < upper bound as found by the Lanczos step is a hypothesis, since DoS estimates can fail it (C65_lowest_eigenvalue_returned_refuted shows what happens without the component hypothesis)."
  },
  {
   "property": "C75",
   "status": "proved",
   "theorems": [
    "C75_templates_run_the_documented_routine",
    "C75_gesvd_real_without_assertions",
    "C75_gesvd_real_refuted",
    "C75_lange_double_refuted",
    "C75_lange_infinity_norm_refuted",
    "C75_stemr_double_refuted",
    "C75_pgqr_single_refuted",
    "C75_large_sizes_refuted"
   ],
   "note": "WrapTable.v is generated from the text of blas_templates.inc (a script translated statement by statement; the result is plain definitions, one per specialisation, with line numbers); routine interfaces are from the documentation of the libraries (BlasDoc). The exceptions are theorems of their own."
  },
  {
   "property": "C76",
   "status": "proved",
   "theorems": [
    "C76_workspaces_double",
    "C76_workspaces_single",
    "C76_workspaces_single_refuted",
    "C76_memory_left_behind"
   ],
   "note": "Rounding is a function on integers (nearest, upward); what the library needs for xSYEVD is its documented minimum."
  },
  {
   "property": "C77",
   "status": "proved",
   "theorems": [
    "C77_squared_norm",
    "C77_complex_dot_product",
    "C77_counter_overflow_refuted"
   ],
   "note": "The order of the additions is part of the statement, so it is meaningful for floating point."
  },
  {
   "property": "C78",
   "status": "proved",
   "theorems": [
    "C78_upload",
    "C78_upload_whole",
    "C78_download",
    "C78_download_whole",
    "C78_up_then_down",
    "C78_down_then_up",
    "C78_padding_never_touched",
    "C78_modes_served",
    "C78_memory_of_the_modes",
    "C78_gpu_modes_without_cuda_refuted",
    "C78_guarded_synchronisation",
    "C78_ritz_value_buffer_refuted",
    "C78_large_sizes_refuted"
   ],
   "note": "host and device memory as lists, transfers as the documented cublasSetMatrix/GetMatrix with arguments narrowed to int; entry-wise specification; sessions by induction"
  },
  {
   "property": "C79",
   "status": "proved",
   "theorems": [
    "C79_sums_are_complete",
    "C79_broadcasts_are_complete",
    "C79_backends_agree",
    "C79_backends_agree_real",
    "C79_complex_product_refuted",
    "C79_unregistered_communicator",
    "C79_large_sums_truncated_refuted",
    "C79_large_sums_lost_refuted",
    "C79_large_sums_abort_refuted",
    "C79_nccl_complex_overflow_refuted"
   ],
   "note": "buffers as lists of real components per process; MPI and NCCL collectives as documented, combined in rank order; counts narrowed to int as at the call sites"
  },
  {
   "property": "C80",
   "status": "proved",
   "theorems": [
    "C80_world_grids",
    "C80_column_grid_iff",
    "C80_sub_communicator_grids_refuted",
    "C80_output_once",
    "C80_output_silent_refuted",
    "C80_devices_distinct",
    "C80_too_few_devices_refuted",
    "C80_two_solvers_on_a_node_refuted"
   ],
   "note": "communicator as the list of world ranks of its members; BLACS system context = MPI_COMM_WORLD; node placement and device count arbitrary"
  },
  {
   "property": "C81",
   "status": "proved",
   "theorems": [
    "C81_mpi_stops",
    "C81_mpi_one_iteration",
    "C81_mpi_single_pair",
    "C81_mpi_eventually",
    "C81_mpi_restart",
    "C81_seq_stops",
    "C81_seq_one_iteration",
    "C81_seq_single_pair",
    "C81_seq_eventually",
    "C81_seq_restart"
   ],
   "note": "exact arithmetic; several wanted pairs and more than one iteration only if none of the earlier iterations locks some of them; degree optimisation only for one iteration; upper bound at least the spectrum is a hypothesis (Lanczos bound)"
  },
  {
   "property": "C82",
   "status": "proved",
   "theorems": [
    "C82_cyclic_descriptor_right",
    "C82_process_without_rows_refuted",
    "C82_block_descriptors_right_iff",
    "C82_long_last_piece_refuted",
    "C82_factorises_the_vectors",
    "C82_programs_complete",
    "C82_solve_on_grid",
    "C82_programs_on_blocks",
    "C82_solve_on_blocks",
    "C82_grid_ends_with_eigenpairs",
    "C82_fixed_degree_grid_ends_with_eigenpairs",
    "C82_blocks_end_with_eigenpairs",
    "C82_fixed_degree_blocks_end_with_eigenpairs"
   ],
   "note": "Descriptors right on every process with rows (block-cyclic) and iff no piece is longer (blocks); factorisation, call sequences, the whole solver and its eigenpairs on both kinds of grids. Refuted: long last piece (out of bounds), process without rows (error code ignored). ScaLAPACK's factorisation itself is an oracle."
  },
  {
   "property": "C83",
   "status": "proved",
   "theorems": [
    "C83_inplace_answer",
    "C83_gpu_answer",
    "C83_mgpu_answer"
   ],
   "note": "Same rules of the oracles as C49-C51 and C65; the in-place and single-GPU backends form the small matrix as (H V)^H V, so their eigenvalue oracle is exact for that product. The excluded runs are excluded per run (or by Cholesky being switched off, or by the oracles)."
  },
  {
   "property": "C84",
   "status": "proved",
   "theorems": [
    "C84_column_backends_no_history",
    "C84_inplace_no_history",
    "C84_gpu_no_history",
    "C84_mgpu_no_history",
    "C84_column_session",
    "C84_inplace_session",
    "C84_inplace_session_start_vectors_refuted"
   ],
   "note": "Runs compared by a simulation of solve in which the two objects agree only on what the run has already written (AlgSim4 paced: random start, approximate start and after the first orthogonalisation); sessions by induction over the list of problems with the buffer sizes as invariant. Sessions with vectors in place refuted by two 3x3 problems."
  },
  {
   "property": "C85",
   "status": "proved",
   "theorems": [
    "C85_inplace_as_seq",
    "C85_gpu_as_seq",
    "C85_random_start_blocks_refuted"
   ],
   "note": "Two-block backend simulated by Seq step by step (ReuseEq), GPU through the bare device backend of C52. The random-start block is the place where they differ: refuted on a 3x3 problem."
  },
  {
   "property": "C86",
   "status": "proved",
   "theorems": [
    "C86_amplification",
    "C86_degree_reaches_tolerance",
    "C86_converged_pairs_refuted",
    "C86_degrees_defined",
    "C86_zero_residual_refuted",
    "C86_no_extra_vectors_refuted",
    "C86_empty_interval_refuted"
   ],
   "note": "exact real arithmetic (Coq's Reals; not finite = None); rounding of the degree formula not modelled. Findings: |log(resid/tol)| grows again below the tolerance; resid = 0, nex = 0 and lowerb >= upperb give a conversion of infinity or NaN to size_t."
  },
  {
   "property": "C87",
   "status": "proved",
   "theorems": [
    "C87_arrays_hold_the_column_run",
    "C87_every_call",
    "C87_no_access_outside_the_arrays",
    "C87_copies_overrun_when_nex_exceeds_nev",
    "C87_padding_has_no_influence"
   ],
   "note": "BLAS/LAPACK calls are quantified oracles on the operands their arguments address (pointer, leading dimension, sizes, triangle); the contents of unreferenced triangles are preserved. LAPACK workspaces and the tau array are inside the oracle."
  },
  {
   "property": "C88",
   "status": "proved",
   "theorems": [
    "C88_arrays_hold_the_column_run",
    "C88_every_call",
    "C88_no_access_outside_the_arrays",
    "C88_array_by_parity",
    "C88_array_holds_the_vectors_refuted",
    "C88_padding_has_no_influence"
   ],
   "note": "BLAS/LAPACK calls are quantified oracles on the operands their arguments address, as in C87; the pointer exchange is modelled by exchanging the arrays and a flag that says which of them is the caller's."
  },
  {
   "property": "C89",
   "status": "proved",
   "theorems": [
    "C89_sequential_arrays_hold_eigenpairs",
    "C89_in_place_arrays_hold_eigenpairs",
    "C89_in_place_caller_array",
    "C89_matrix_array_unchanged",
    "C89_fixed_degree_sequential",
    "C89_fixed_degree_in_place"
   ],
   "note": "Library calls are characterised by their documented effect (exact_lib, satisfied over complex numbers by an explicit instance, C89_example_library). A run in which Cholesky QR fails after its first factorisation is excluded (see C29); with Householder QR there is none."
  },
  {
   "property": "C90",
   "status": "proved",
   "theorems": [
    "C90_arrays_hold_the_column_run",
    "C90_new_objects",
    "C90_every_call",
    "C90_no_access_outside_the_arrays",
    "C90_host_arrays_after_a_solve",
    "C90_only_matrix_and_device_vectors_matter",
    "C90_vectors_of_the_caller_used_refuted"
   ],
   "note": "cuBLAS and cuSOLVER calls are arbitrary functions of the operands they read; kernels of shift.cu have the effect proved in C56-C60, computeDiagonalAbsSum as if its cell were cleared (C61). Expectation on start vectors refuted (C54 on arrays)."
  },
  {
   "property": "C91",
   "status": "proved",
   "theorems": [
    "C91_gpu_arrays_hold_eigenpairs",
    "C91_fixed_degree_gpu"
   ],
   "note": "As C89, on the arrays of C90. A run in which Cholesky QR fails after its first factorisation is excluded (see C29, C53); with Householder QR there is none."
  },
  {
   "property": "C92",
   "status": "proved",
   "theorems": [
    "C92_used_object_sequential",
    "C92_used_object_in_place",
    "C92_new_objects",
    "C92_after_a_solve_sequential",
    "C92_after_a_solve_in_place",
    "C92_no_access_outside_sequential",
    "C92_no_access_outside_in_place",
    "C92_in_place_exchange",
    "C92_no_history_sequential",
    "C92_no_history_in_place",
    "C92_no_history_gpu",
    "C92_session_sequential",
    "C92_session_in_place",
    "C92_session_gpu",
    "C92_in_place_start_vectors_refuted"
   ],
   "note": "Library calls are arbitrary functions of the operands they read, except gemm_overwrites where stated (the BLAS rule for beta = 0). The caller's vectors are read from the array the vector pointer of the object refers to. C52 on arrays."
  },
  {
   "property": "C93",
   "status": "proved",
   "theorems": [
    "C93_used_sequential_object",
    "C93_used_in_place_object",
    "C93_matrix_array_unchanged",
    "C93_session_sequential",
    "C93_session_in_place",
    "C93_session_gpu"
   ],
   "note": "As C89 and C91, from any object. In place the vectors are in the caller's array or in the object's own second one according to C92_in_place_exchange. Runs in which Cholesky QR fails after its first factorisation are excluded in the first two theorems (see C29, C53)."
  },
  {
   "property": "C94",
   "status": "proved",
   "theorems": [
    "C94_sequential",
    "C94_in_place",
    "C94_gpu",
    "C94_mpi",
    "C94_multi_gpu",
    "C94_default_configuration_refuted",
    "C94_default_configuration"
   ],
   "note": "The converse is the safety part of C21, C25, C87, C88, C90 and C92. MPI backends at column level; the multi-GPU one under the hypotheses of its column simulation (BLAS rule for beta = 0, no late Cholesky failure)."
  },
  {
   "property": "C95",
   "status": "proved",
   "theorems": [
    "C95_session_on_grid",
    "C95_session_on_blocks",
    "C95_session_on_grid_eigenpairs",
    "C95_session_on_blocks_eigenpairs",
    "C95_scalapack_session_on_grid",
    "C95_scalapack_session_on_blocks",
    "C95_scalapack_session_on_grid_eigenpairs",
    "C95_scalapack_session_on_blocks_eigenpairs"
   ],
   "note": "CPU MPI backend at the level of array entries and collectives (as C48, C70 and, for builds with ScaLAPACK, C82). The element type is a field (exact arithmetic); the problems of one object have the same size and distribution."
  },
  {
   "property": "C96",
   "status": "proved",
   "theorems": [
    "C96_work_area_suffices",
    "C96_defined_iff",
    "C96_allocated_size",
    "C96_eigenproblem_sizes",
    "C96_any_library_refuted"
   ],
   "note": "Sizes only: contents are in C90 (one GPU) and C62-C64 (several). Sizes are below 2^31; the status of the queries, which the single-GPU backend does not check for heevd and potrf, is success. The condition on eigenproblem sizes is needed (C96_any_library_refuted, C96_defined_iff)."
  },
  {
   "property": "C97",
   "status": "proved",
   "theorems": [
    "C97_left_behind",
    "C97_no_wrong_release",
    "C97_completes_iff",
    "C97_any_number_of_objects_refuted",
    "C97_calls_leave_nothing",
    "C97_clean_iff"
   ],
   "note": "Handles only: heap and device memory are in C66 and C67. Creation of anything but a communicator, and opening a file, always succeeds; objects that MPI or CUDA create internally are not counted."
  },
  {
   "property": "C98",
   "status": "proved",
   "theorems": [
    "C98_async_solve",
    "C98_same_as_cpu",
    "C98_schedules_agree"
   ],
   "note": "Everything of this backend is on the default stream; C69 has the counterexamples with device pointers given to MPI and with non-blocking streams. The comparison with the CPU backend has the hypotheses of C62 (build without ScaLAPACK, no late Cholesky failure)."
  },
  {
   "property": "C99",
   "status": "proved",
   "theorems": [
    "C99_session",
    "C99_single_gpu_session"
   ],
   "note": "For problems that a new CPU object solves without undefined behaviour (C62 says when). Hypotheses of C62: no late Cholesky failure, products with a zero factor do not read the old contents."
  },
  {
   "property": "C100",
   "status": "proved",
   "theorems": [
    "C100_single_gpu",
    "C100_multi_gpu",
    "C100_single_gpu_any_start",
    "C100_multi_gpu_any_start",
    "C100_multi_gpu_session"
   ],
   "note": "Exact arithmetic, as in C83; no late Cholesky failure. The undefined degree is the one of degree_overflow (NaN or infinite degree estimates with the degree optimisation on); with a fixed degree it cannot occur (C100_example). On the multi-GPU backend values correspond to vectors up to one permutation, as in C83. The theorems without a hypothesis about the in-order run are for solves that use the vectors already in the object; the _any_start theorems cover random starts, given that the in-order run returns."
  }
 ]
}