{
 "claims": [
  {
   "property": "C01",
   "status": "proved",
   "theorems": [
    "C01_compress3_then_decompress3",
    "C01_decompress3_then_compress3",
    "C01_compress3_is_row_major",
    "C01_compress2_then_decompress2",
    "C01_decompress2_then_compress2",
    "C01_compress2_is_row_major"
   ],
   "note": ""
  },
  {
   "property": "C02",
   "status": "partial",
   "theorems": [
    "C02_mod_is_remainder",
    "C02_mod_is_periodic",
    "C02_mod_large_modulus_refuted"
   ],
   "note": "Proved for b up to 2^30 (C02_mod_is_remainder, C02_mod_is_periodic); beyond, the intermediate sum overflows (refuted)."
  },
  {
   "property": "C03",
   "status": "proved",
   "theorems": [
    "C03_shares_partition_tasks",
    "C03_shares_balanced",
    "C03_divideWork_agrees",
    "C03_workDivHelper_matches"
   ],
   "note": ""
  },
  {
   "property": "C04",
   "status": "proved",
   "theorems": [
    "C04_gathered_shares_are_serial"
   ],
   "note": ""
  },
  {
   "property": "C05",
   "status": "partial",
   "theorems": [
    "C05_bigAllGatherV_partial",
    "C05_bigAllGatherV_pool_refuted"
   ],
   "note": "Proved on the world communicator and for less than INT_MAX elements in total; a larger gather in another pool reads the counts out of range (refuted)."
  },
  {
   "property": "C06",
   "status": "partial",
   "theorems": [
    "C06_allReduceSum_two_buffers_refuted",
    "C06_allReduceSum_two_buffers_partial",
    "C06_allReduceSum_in_place"
   ],
   "note": "Correct for two or more ranks; with one rank the output buffer is left untouched (refuted). The in-place variant is correct."
  },
  {
   "property": "C07",
   "status": "proved",
   "theorems": [
    "C07_bad_pool_size_stops",
    "C07_pools_tile",
    "C07_pool_coordinates_identify_process"
   ],
   "note": ""
  },
  {
   "property": "C08",
   "status": "proved",
   "theorems": [
    "C08_node_order",
    "C08_lookup_of_coordinates",
    "C08_coordinates_distinct",
    "C08_every_node_found"
   ],
   "note": ""
  },
  {
   "property": "C09",
   "status": "partial",
   "theorems": [
    "C09_off_mesh_rejected_refuted",
    "C09_off_mesh_rejected_partial",
    "C09_accepted_is_nearest_node"
   ],
   "note": "Refuted: the deviations of the components are added with their sign and can cancel. Proved when no component lies above its nearest node; what is accepted is always the nearest node."
  },
  {
   "property": "C10",
   "status": "proved",
   "theorems": [
    "C10_sum_conserves_momentum",
    "C10_difference_conserves_momentum",
    "C10_sum_commutes",
    "C10_sum_associates",
    "C10_sum_then_difference",
    "C10_hasUmklapp",
    "C10_shifted_mesh_refuted"
   ],
   "note": "Proved for Gamma-centred meshes, as stated. C10_shifted_mesh_refuted records that a shifted mesh does not close under addition."
  },
  {
   "property": "C11",
   "status": "proved",
   "theorems": [
    "C11_active_lookup",
    "C11_fine_mesh_refuted",
    "C11_unsorted_filter_refuted"
   ],
   "note": "Proved as stated. The two refuted theorems show that the restrictions of the statement are needed: meshes of more than 1000 points per direction and unsorted filters."
  },
  {
   "property": "C12",
   "status": "partial",
   "theorems": [
    "C12_path_lookup_refuted",
    "C12_shifted_filter_refuted",
    "C12_unsorted_list_lookup_partial"
   ],
   "note": "Refuted for paths taken for sorted lists and for filtered meshes with an offset; proved for lists recognised as unsorted."
  },
  {
   "property": "C13",
   "status": "partial",
   "theorems": [
    "C13_range_check_refuted",
    "C13_full_size_filter_refuted",
    "C13_negative_refused_partial"
   ],
   "note": "Negative indices are refused unless the filter is as long as the mesh; indices beyond the mesh are accepted (refuted)."
  },
  {
   "property": "C14",
   "status": "proved",
   "theorems": [
    "C14_orbits_and_stars",
    "C14_mesh_group_acts"
   ],
   "note": ""
  },
  {
   "property": "C15",
   "status": "proved",
   "theorems": [
    "C15_index_maps_inverse",
    "C15_irreducible_iterators"
   ],
   "note": ""
  },
  {
   "property": "C16",
   "status": "proved",
   "theorems": [
    "C16_rotations_of_the_star",
    "C16_rotation_to_irreducible",
    "C16_rotation_with_velocities"
   ],
   "note": ""
  },
  {
   "property": "C17",
   "status": "partial",
   "theorems": [
    "C17_recompute_refuted",
    "C17_recompute_partial"
   ],
   "note": "Refuted for a different list of symmetries: stars of the first call stay. Proved for the same symmetries."
  },
  {
   "property": "C18",
   "status": "proved",
   "theorems": [
    "C18_state_numbering",
    "C18_velocity_slots",
    "C18_eigenvector_slots"
   ],
   "note": ""
  },
  {
   "property": "C19",
   "status": "proved",
   "theorems": [
    "C19_bte_numbering",
    "C19_irreducible_states_iterator",
    "C19_full_bte_numbering",
    "C19_tables_of_points_qualify"
   ],
   "note": ""
  },
  {
   "property": "C20",
   "status": "proved",
   "theorems": [
    "C20_energy_window",
    "C20_energy_limits",
    "C20_mu_window_contains"
   ],
   "note": ""
  },
  {
   "property": "C21",
   "status": "partial",
   "theorems": [
    "C21_population_window_partial",
    "C21_phonons",
    "C21_discards",
    "C21_population_window_refuted"
   ],
   "note": "Proved for phonons and for electrons at the extreme chemical potentials; refuted for electrons at intermediate chemical potentials."
  },
  {
   "property": "C22",
   "status": "proved",
   "theorems": [
    "C22_kept_points_independent_of_ranks_and_threads",
    "C22_windows_qualify",
    "C22_band_counts",
    "C22_energies_independent_of_ranks",
    "C22_velocities_independent_of_ranks",
    "C22_eigenvectors_independent_of_ranks"
   ],
   "note": ""
  },
  {
   "property": "C23",
   "status": "proved",
   "theorems": [
    "C23_constructor_layout",
    "C23_one_owner",
    "C23_global_to_local_to_global",
    "C23_local_to_global_to_local",
    "C23_local_states_partition",
    "C23_storage_size",
    "C23_square_grid",
    "C23_write_history",
    "C23_nonlocal_reads_zero"
   ],
   "note": ""
  },
  {
   "property": "C24",
   "status": "partial",
   "theorems": [
    "C24_local_rows_refuted",
    "C24_local_cols_refuted",
    "C24_local_rows_partial",
    "C24_local_cols_partial",
    "C24_default_layout_partial"
   ],
   "note": "Refuted for blocks of one row and for several blocks per process. Proved with one process row (column), with one block of more than one row per process, and for default layouts of matrices larger than the grid."
  },
  {
   "property": "C25",
   "status": "proved",
   "theorems": [
    "C25_write_history",
    "C25_write_then_read",
    "C25_out_of_range_stops",
    "C25_new_matrix_is_zero",
    "C25_index_maps_inverse",
    "C25_all_states"
   ],
   "note": ""
  },
  {
   "property": "C26",
   "status": "partial",
   "theorems": [
    "C26_eye_refuted",
    "C26_eye_partial",
    "C26_eye_of_new_matrix",
    "C26_distributed_eye",
    "C26_nonsquare_stops"
   ],
   "note": "Refuted: the serial eye() does not clear off-diagonal elements. Proved: what it does, new matrices, distributed matrices, refusal of non-square ones."
  },
  {
   "property": "C27",
   "status": "proved",
   "theorems": [
    "C27_symmetrize",
    "C27_symmetrize_consequences",
    "C27_nonsquare_stops"
   ],
   "note": ""
  },
  {
   "property": "C28",
   "status": "partial",
   "theorems": [
    "C28_transposed_rectangular_refuted",
    "C28_prod_partial",
    "C28_incompatible_stops"
   ],
   "note": "Refuted for transposed rectangular factors; proved when every transposed factor is square."
  },
  {
   "property": "C29",
   "status": "proved",
   "theorems": [
    "C29_index_maps_inverse",
    "C29_elementwise",
    "C29_broadcast",
    "C29_mismatch_stops",
    "C29_reciprocal",
    "C29_scalings",
    "C29_canonical_round_trip",
    "C29_new_vector"
   ],
   "note": ""
  },
  {
   "property": "C30",
   "status": "partial",
   "theorems": [
    "C30_vector_times_matrix",
    "C30_misaligned_stops",
    "C30_epa_matrix_refuted"
   ],
   "note": "Proved for VectorBTE. C30_epa_matrix_refuted: the VectorEPA product assigns instead of accumulating."
  },
  {
   "property": "C31",
   "status": "partial",
   "theorems": [
    "C31_exclusion_refuted",
    "C31_dot_partial",
    "C31_schedule_independent"
   ],
   "note": "Refuted: the state index is compared with the list of excluded BTE indices. Proved where the two agree; the sum does not depend on the schedule."
  },
  {
   "property": "C32",
   "status": "proved",
   "theorems": [
    "C32_products_agree",
    "C32_products_agree_electrons",
    "C32_phonon_events",
    "C32_electron_events"
   ],
   "note": ""
  },
  {
   "property": "C33",
   "status": "proved",
   "theorems": [
    "C33_setup_layout",
    "C33_setup_refused",
    "C33_memory_linewidths",
    "C33_memory_elements",
    "C33_fly_linewidths",
    "C33_fly_product"
   ],
   "note": ""
  },
  {
   "property": "C34",
   "status": "partial",
   "theorems": [
    "C34_phonon_pairs",
    "C34_electron_pairs",
    "C34_matrix_pairs",
    "C34_pools_in_step",
    "C34_dummies_skipped",
    "C34_phonon_electron_refuted"
   ],
   "note": "Proved for phonon, electron and matrix iterators; refuted for the phonon-electron iterator (no padding of the pools)."
  },
  {
   "property": "C35",
   "status": "partial",
   "theorems": [
    "C35_memory",
    "C35_on_the_fly",
    "C35_modes_differ_refuted"
   ],
   "note": "Proved for each storage mode with its own diagonal; refuted in the low-memory mode where the diagonal was averaged over degenerate bands."
  },
  {
   "property": "C36",
   "status": "partial",
   "theorems": [
    "C36_average_over_blocks",
    "C36_chain_refuted"
   ],
   "note": "Proved for bands grouped in separate degenerate blocks; refuted for chains of bands each within the threshold of the next."
  },
  {
   "property": "C37",
   "status": "partial",
   "theorems": [
    "C37_average_partial",
    "C37_threshold",
    "C37_second_calculation_refuted",
    "C37_chain_refuted"
   ],
   "note": "Proved for the first calculation and separate blocks; refuted for the other calculations and for chains."
  },
  {
   "property": "C38",
   "status": "partial",
   "theorems": [
    "C38_sum_partial",
    "C38_sum_other_calculations",
    "C38_memory_refuted",
    "C38_excluded_refuted"
   ],
   "note": "Proved without matrix in memory for states that are not excluded; refuted in memory mode and for excluded states."
  },
  {
   "property": "C39",
   "status": "partial",
   "theorems": [
    "C39_elements",
    "C39_twice",
    "C39_symmetric",
    "C39_linewidths_partial",
    "C39_other_processes_refuted",
    "C39_symmetries_refuted",
    "C39_electrons_refuted"
   ],
   "note": "Elements, idempotence and symmetry proved; linewidths proved on the process owning the diagonal element without symmetries; refuted on the other processes, with symmetries and for electrons."
  },
  {
   "property": "C40",
   "status": "partial",
   "theorems": [
    "C40_get_after_set_partial",
    "C40_get_after_set_electrons",
    "C40_times_after_set",
    "C40_matrix_after_set",
    "C40_wrong_shape",
    "C40_constant_time_refuted",
    "C40_electrons_refuted"
   ],
   "note": "Proved outside of the constant relaxation time approximation and for phonons; refuted for the others."
  },
  {
   "property": "C41",
   "status": "partial",
   "theorems": [
    "C41_fermi_dirac",
    "C41_bose_einstein",
    "C41_zero_temperature",
    "C41_range",
    "C41_fermi_decreases",
    "C41_bose_decreases",
    "C41_fluctuations_electrons",
    "C41_fluctuations_phonons",
    "C41_fluctuations_phonons_refuted",
    "C41_dnde_is_derivative_electrons",
    "C41_dnde_is_derivative_phonons",
    "C41_dndt_is_derivative_electrons",
    "C41_dndt_is_derivative_phonons",
    "C41_symmetrized_derivatives",
    "C41_detailed_balance_phonons",
    "C41_detailed_balance_electron_phonon",
    "C41_electron_hole"
   ],
   "note": "Everything is proved for bosons above the chemical potential and for fermions; below the chemical potential the boson relation is refuted."
  },
  {
   "property": "C42",
   "status": "partial",
   "theorems": [
    "C42_gaussian_even_refuted",
    "C42_gaussian_even_partial",
    "C42_gaussian_nonnegative",
    "C42_adaptive_even",
    "C42_adaptive_velocity_even",
    "C42_adaptive_nonnegative"
   ],
   "note": "Refuted: the cutoff of the Gaussian is one-sided. Proved within the cutoff; adaptive Gaussians are even."
  },
  {
   "property": "C43",
   "status": "partial",
   "theorems": [
    "C43_tetrahedra_cover_the_cell",
    "C43_tetrahedra_do_not_overlap",
    "C43_equal_volumes",
    "C43_weight_nonnegative",
    "C43_weight_support",
    "C43_cell_normalised_partial",
    "C43_band_normalised_partial",
    "C43_small_weights",
    "C43_flat_band_refuted"
   ],
   "note": "Tiling, volumes, non-negativity and support proved; normalisation proved when no tetrahedron has four equal energies; refuted for a flat band."
  },
  {
   "property": "C44",
   "status": "partial",
   "theorems": [
    "C44_empty_line",
    "C44_ignorable_line_partial",
    "C44_trailing_comment_partial",
    "C44_accepted",
    "C44_settings",
    "C44_order_partial",
    "C44_order_refuted",
    "C44_semicolon_in_comment_refuted",
    "C44_comment_in_block_refuted",
    "C44_end_in_comment_refuted",
    "C44_blank_after_block_name_refuted",
    "C44_blanks",
    "C44_crystal",
    "C44_path"
   ],
   "note": "Proved for comments and blank lines that contain no separator and outside of blocks, and for permutations of distinct keys; refuted for the listed corner cases."
  },
  {
   "property": "C45",
   "status": "partial",
   "theorems": [
    "C45_bool",
    "C45_int",
    "C45_double",
    "C45_double_list",
    "C45_int_list",
    "C45_string_list",
    "C45_list_brackets",
    "C45_string",
    "C45_unquoted",
    "C45_keys",
    "C45_window",
    "C45_constants",
    "C45_units",
    "C45_bool_refuted",
    "C45_trailing_text_refuted",
    "C45_units_refuted",
    "C45_short_mesh_refuted"
   ],
   "note": "Proved for all documented forms; refuted where text that is not a valid value is accepted."
  },
  {
   "property": "C46",
   "status": "partial",
   "theorems": [
    "C46_electron_dopings_partial",
    "C46_electron_chemical_potentials_partial",
    "C46_phonons",
    "C46_one_calculation_per_request",
    "C46_both_given_refuted",
    "C46_copy"
   ],
   "note": "Proved when only dopings or only chemical potentials are given; refuted when both are."
  },
  {
   "property": "C47",
   "status": "partial",
   "theorems": [
    "C47_bisection_brackets",
    "C47_bisection_stops",
    "C47_search_crossing",
    "C47_count_matched_partial",
    "C47_doping_round_trip_partial",
    "C47_search_succeeds",
    "C47_zero_temperature_succeeds",
    "C47_impossible_doping_rejected",
    "C47_zero_temperature_count_refuted",
    "C47_processes_differ_refuted",
    "C47_count_schedule_independent",
    "C47_fermi_level_count",
    "C47_fermi_level_on_band_refuted"
   ],
   "note": "Bracketing, termination, success and rejection proved; the count is matched up to the rounding of the bisection; refuted at zero temperature, for processes that hold different states and for a Fermi level on a band."
  },
  {
   "property": "C48",
   "status": "partial",
   "theorems": [
    "C48_sweep_partial",
    "C48_not_positive_step_refuted",
    "C48_rounding_never_ends_refuted",
    "C48_rounding_end_point_refuted"
   ],
   "note": "Proved in exact arithmetic for positive steps; refuted for steps that are not positive and in double precision (never ends, loses the end point)."
  },
  {
   "property": "C49",
   "status": "partial",
   "theorems": [
    "C49_weights",
    "C49_withShift_refuted"
   ],
   "note": "Proved for the unshifted vectors; refuted for the version with shifts (inverted test)."
  },
  {
   "property": "C50",
   "status": "partial",
   "theorems": [
    "C50_findMaxRelativeDifference_refuted",
    "C50_findMaxRelativeDifference_is_minimum"
   ],
   "note": "Refuted: the code computes the minimum (C50_findMaxRelativeDifference_is_minimum)."
  },
  {
   "property": "C51",
   "status": "proved",
   "theorems": [
    "C51_batches",
    "C51_batches_overflow",
    "C51_active_batches",
    "C51_splitVector",
    "C51_splitVector_zero_chunk_never_ends"
   ],
   "note": ""
  },
  {
   "property": "C52",
   "status": "proved",
   "theorems": [
    "C52_tokenize_spec"
   ],
   "note": ""
  },
  {
   "property": "C53",
   "status": "partial",
   "theorems": [
    "C53_third_points",
    "C53_cache_partial",
    "C53_cache_gap_refuted"
   ],
   "note": "The list of third points is proved; the cache is proved for lists without gaps and refuted with gaps."
  },
  {
   "property": "C54",
   "status": "partial",
   "theorems": [
    "C54_foldToBz_equivalent",
    "C54_foldToBz_idempotent",
    "C54_foldToBz_canonical",
    "C54_bzToWs_equivalent",
    "C54_bzToWs_minimal_partial",
    "C54_bzToWs_minimal_refuted"
   ],
   "note": "Folding and equivalence proved; the norm is proved minimal among the 117 lattice vectors searched (to 1e-8) and refuted for skewed cells."
  },
  {
   "property": "C55",
   "status": "proved",
   "theorems": [
    "C55_state_numbering",
    "C55_energies_stored",
    "C55_velocities_stored",
    "C55_group_velocity",
    "C55_eigenvectors_stored",
    "C55_nonlocal_access_stops",
    "C55_iterators_are_local",
    "C55_iterators_join",
    "C55_more_processes_than_points_stops"
   ],
   "note": ""
  },
  {
   "property": "C56",
   "status": "proved",
   "theorems": [
    "C56_datatypeHelper_lossless"
   ],
   "note": ""
  },
  {
   "property": "C57",
   "status": "partial",
   "theorems": [
    "C57_stars_refuted",
    "C57_stars_partial",
    "C57_cubic_meshes_qualify"
   ],
   "note": "Refuted for meshes without the symmetry of the crystal; proved for the others, among them cubic meshes."
  },
  {
   "property": "C58",
   "status": "partial",
   "theorems": [
    "C58_offset_check_refuted",
    "C58_sizes_checked_partial"
   ],
   "note": "Sizes are checked; offsets of 1 or more are accepted (refuted)."
  },
  {
   "property": "C59",
   "status": "proved",
   "theorems": [
    "C59_findMesh_recovers_mesh"
   ],
   "note": ""
  },
  {
   "property": "C60",
   "status": "partial",
   "theorems": [
    "C60_path_contains_extrema_partial",
    "C60_short_segment_refuted"
   ],
   "note": "Proved for segments not shorter than the spacing; refuted for shorter ones."
  },
  {
   "property": "C61",
   "status": "partial",
   "theorems": [
    "C61_no_window_energies_refuted",
    "C61_no_window_partial"
   ],
   "note": "Bands are kept, but band indices are returned in place of energies (refuted)."
  },
  {
   "property": "C62",
   "status": "partial",
   "theorems": [
    "C62_single_process_dot_refuted",
    "C62_dot_partial"
   ],
   "note": "Proved with two or more processes; the dot product is zero on a single process (refuted)."
  },
  {
   "property": "C63",
   "status": "partial",
   "theorems": [
    "C63_device_batches_partial",
    "C63_no_points_refuted"
   ],
   "note": "Proved for processes with points; division by zero for a process without points (refuted)."
  },
  {
   "property": "C64",
   "status": "partial",
   "theorems": [
    "C64_batch_size",
    "C64_batches_partial",
    "C64_batches_refuted"
   ],
   "note": "The batch size is proved; with a number of batches the memory can be exceeded (refuted), by less than one point (proved)."
  },
  {
   "property": "C65",
   "status": "proved",
   "theorems": [
    "C65_phonons_residual",
    "C65_electrons_residual",
    "C65_fixed_points",
    "C65_starting_point",
    "C65_excluded"
   ],
   "note": ""
  },
  {
   "property": "C66",
   "status": "partial",
   "theorems": [
    "C66_convergence_partial",
    "C66_divergence_refuted"
   ],
   "note": "Proved for matrices dominated by their diagonal, with geometric rate; refuted in general: a symmetric positive definite matrix can make the iteration diverge."
  },
  {
   "property": "C67",
   "status": "proved",
   "theorems": [
    "C67_exact",
    "C67_residual",
    "C67_functional_grows",
    "C67_solution_maximises",
    "C67_solution_unique",
    "C67_solution_kept"
   ],
   "note": ""
  },
  {
   "property": "C68",
   "status": "partial",
   "theorems": [
    "C68_formulas_agree",
    "C68_symmetric",
    "C68_positive",
    "C68_electrons_monotone",
    "C68_phonons_refuted",
    "C68_phonons_partial"
   ],
   "note": "Proved for electrons; for phonons the value shown mixes old and new populations and can exceed the solution (refuted), it is right once the solution is reached (proved)."
  },
  {
   "property": "C69",
   "status": "partial",
   "theorems": [
    "C69_exit",
    "C69_not_converged",
    "C69_test_partial",
    "C69_all_components_refuted",
    "C69_no_iterations_refuted"
   ],
   "note": "Exit conditions proved; refuted: the test uses the smallest change, and no iteration returns the RTA."
  },
  {
   "property": "C70",
   "status": "partial",
   "theorems": [
    "C70_open_circuit_partial",
    "C70_exact_solution_refuted",
    "C70_mobility"
   ],
   "note": "Proved for symmetric Onsager tensors (true in the RTA); refuted for exact solutions of the BTE, whose LET need not be symmetric."
  },
  {
   "property": "C71",
   "status": "proved",
   "theorems": [
    "C71_symmetric",
    "C71_reciprocity",
    "C71_conductivity_positive",
    "C71_thermal_conductivity_positive",
    "C71_single_energy",
    "C71_phonons_symmetric",
    "C71_phonons_positive"
   ],
   "note": ""
  },
  {
   "property": "C72",
   "status": "proved",
   "theorems": [
    "C72_electrons",
    "C72_distribution_independent",
    "C72_phonons",
    "C72_views"
   ],
   "note": ""
  },
  {
   "property": "C73",
   "status": "partial",
   "theorems": [
    "C73_sums_partial",
    "C73_reciprocity_refuted",
    "C73_single_energy_refuted"
   ],
   "note": "Sums proved; refuted: the sign of LTE is wrong, so that carriers of one energy conduct heat at zero current."
  },
  {
   "property": "C74",
   "status": "partial",
   "theorems": [
    "C74_lists_partial",
    "C74_mobility_refuted"
   ],
   "note": "Temperatures, dopings and coefficients proved; the mobility list skips calculations with zero doping (refuted)."
  },
  {
   "property": "C75",
   "status": "proved",
   "theorems": [
    "C75_solution"
   ],
   "note": ""
  },
  {
   "property": "C76",
   "status": "proved",
   "theorems": [
    "C76_sum",
    "C76_positive"
   ],
   "note": ""
  },
  {
   "property": "C77",
   "status": "partial",
   "theorems": [
    "C77_low_dimensions_refuted"
   ],
   "note": "Refuted: 3x3 views over d x d buffers."
  },
  {
   "property": "C78",
   "status": "partial",
   "theorems": [
    "C78_some_eigenvalues_refuted"
   ],
   "note": "Refuted: the eigenvalue is read before its index is checked."
  },
  {
   "property": "C79",
   "status": "proved",
   "theorems": [
    "C79_forces",
    "C79_others_unchanged",
    "C79_idempotent",
    "C79_charges_simple",
    "C79_charges_crystal",
    "C79_charges_same",
    "C79_names"
   ],
   "note": ""
  },
  {
   "property": "C80",
   "status": "partial",
   "theorems": [
    "C80_symmetric_partial",
    "C80_idempotent_partial",
    "C80_forces_refuted"
   ],
   "note": "Symmetry and invariance of good force constants proved for all inputs; refuted: the forces do not vanish (index order of the Gram-Schmidt step)."
  },
  {
   "property": "C81",
   "status": "proved",
   "theorems": [
    "C81_hermitian",
    "C81_hermitian_shifts",
    "C81_periodic",
    "C81_periodic_shifts",
    "C81_time_reversal",
    "C81_null_shifts"
   ],
   "note": ""
  },
  {
   "property": "C82",
   "status": "partial",
   "theorems": [
    "C82_same_without_shifts",
    "C82_shifts_out_of_bounds_refuted",
    "C82_shifts_refuted"
   ],
   "note": "Proved without shifted vectors; refuted with them."
  },
  {
   "property": "C83",
   "status": "partial",
   "theorems": [
    "C83_berry_connection_refuted"
   ],
   "note": "Refuted: always out of bounds for more than three lattice vectors."
  },
  {
   "property": "C84",
   "status": "partial",
   "theorems": [
    "C84_hermitian",
    "C84_host_device_partial",
    "C84_near_gamma_refuted",
    "C84_gradient_is_derivative",
    "C84_derivative_error",
    "C84_wavevectors",
    "C84_phases"
   ],
   "note": "All proved except the equality of host and device for 1e-6 <= |k| <= 1e-3 (refuted there)."
  },
  {
   "property": "C85",
   "status": "proved",
   "theorems": [
    "C85_groups",
    "C85_hermitian",
    "C85_diagonal",
    "C85_trace",
    "C85_others_unchanged",
    "C85_enumeration",
    "C85_device_host"
   ],
   "note": ""
  },
  {
   "property": "C86",
   "status": "partial",
   "theorems": [
    "C86_batches",
    "C86_no_points_refuted"
   ],
   "note": "Proved for processes with points; refuted for a process without points."
  },
  {
   "property": "C87",
   "status": "proved",
   "theorems": [
    "C87_fourier",
    "C87_weights",
    "C87_weights_symmetric",
    "C87_periodic"
   ],
   "note": ""
  },
  {
   "property": "C88",
   "status": "proved",
   "theorems": [
    "C88_hermitian",
    "C88_symmetrisation_idle",
    "C88_reversal",
    "C88_same_frequencies"
   ],
   "note": ""
  },
  {
   "property": "C89",
   "status": "proved",
   "theorems": [
    "C89_device"
   ],
   "note": ""
  },
  {
   "property": "C90",
   "status": "partial",
   "theorems": [
    "C90_acoustic",
    "C90_acoustic_polar",
    "C90_acoustic_exactly",
    "C90_acoustic_tensor_charges_refuted"
   ],
   "note": "Proved without polar part and when the on-site correction is symmetric; refuted for general neutral tensor charges."
  },
  {
   "property": "C91",
   "status": "proved",
   "theorems": [
    "C91_same",
    "C91_square",
    "C91_order",
    "C91_mass_normalised"
   ],
   "note": ""
  },
  {
   "property": "C92",
   "status": "proved",
   "theorems": [
    "C92_root",
    "C92_hermitian",
    "C92_phases",
    "C92_velocity"
   ],
   "note": ""
  },
  {
   "property": "C93",
   "status": "partial",
   "theorems": [
    "C93_dipole_refuted"
   ],
   "note": "Refuted: the constant named fourPi is 2 pi; the proved value is stated in the theorem."
  },
  {
   "property": "C94",
   "status": "proved",
   "theorems": [
    "C94_absorption_energy",
    "C94_decay_energy",
    "C94_reverse_process",
    "C94_symmetric_rates",
    "C94_isotopes",
    "C94_electron_number"
   ],
   "note": ""
  },
  {
   "property": "C95",
   "status": "partial",
   "theorems": [
    "C95_product_partial",
    "C95_symmetries_partial",
    "C95_symmetries_refuted"
   ],
   "note": "Proved when no transition connects equivalent states; refuted otherwise: in-scattering between equivalent states is dropped."
  },
  {
   "property": "C96",
   "status": "partial",
   "theorems": [
    "C96_couplings_partial",
    "C96_squared_weights",
    "C96_weights_refuted",
    "C96_batches",
    "C96_outside_refuted"
   ],
   "note": "Proved for weights 0 or 1; refuted otherwise: the weights of the third cells are applied twice. Calls without points and more third than second cells are undefined."
  },
  {
   "property": "C97",
   "status": "proved",
   "theorems": [
    "C97_phases",
    "C97_degenerate_1",
    "C97_degenerate_2",
    "C97_degenerate_3",
    "C97_opposite",
    "C97_emission",
    "C97_periodic",
    "C97_translation"
   ],
   "note": ""
  },
  {
   "property": "C98",
   "status": "partial",
   "theorems": [
    "C98_read_back_partial",
    "C98_unequal_cells_refuted"
   ],
   "note": "Proved when both lists of cells have the same length; refuted otherwise."
  },
  {
   "property": "C99",
   "status": "proved",
   "theorems": [
    "C99_coupling",
    "C99_distribution",
    "C99_degenerate",
    "C99_batches"
   ],
   "note": ""
  },
  {
   "property": "C100",
   "status": "partial",
   "theorems": [
    "C100_froehlich_refuted",
    "C100_coupling_refuted",
    "C100_gamma"
   ],
   "note": "Refuted by the factor of two of the constant fourPi; the Gamma point is proved."
  },
  {
   "property": "C101",
   "status": "proved",
   "theorems": [
    "C101_round_trip",
    "C101_processes"
   ],
   "note": ""
  },
  {
   "property": "C102",
   "status": "proved",
   "theorems": [
    "C102_bands"
   ],
   "note": ""
  },
  {
   "property": "C103",
   "status": "partial",
   "theorems": [
    "C103_rotation",
    "C103_static_partial",
    "C103_threads_refuted"
   ],
   "note": "Proved when the number of threads divides the iterations of the first loop (static schedule); refuted otherwise."
  },
  {
   "property": "C104",
   "status": "partial",
   "theorems": [
    "C104_distributed",
    "C104_few_vectors_refuted"
   ],
   "note": "Proved when there are at least as many lattice vectors as processes; refuted otherwise."
  },
  {
   "property": "C105",
   "status": "partial",
   "theorems": [
    "C105_distributed_partial",
    "C105_at_once_partial",
    "C105_polar_refuted",
    "C105_disentangled_refuted"
   ],
   "note": "Proved: the sum differs from the ab initio coupling by x (S - conj S); it is not zero in general (refuted), and with disentanglement the at-once branch writes out of bounds."
  },
  {
   "property": "C106",
   "status": "partial",
   "theorems": [
    "C106_bands_read_partial",
    "C106_product",
    "C106_disentangled_refuted"
   ],
   "note": "Orthonormality proved; bands beyond the number of Wannier functions are dropped (refuted)."
  },
  {
   "property": "C107",
   "status": "partial",
   "theorems": [
    "C107_offset_partial",
    "C107_offset_refuted",
    "C107_fewer_bands_refuted"
   ],
   "note": "Proved: the offset found is right only if no band is left above, one too large otherwise (refuted); undefined for fewer ab initio bands."
  },
  {
   "property": "C108",
   "status": "proved",
   "theorems": [
    "C108_vectors",
    "C108_refused"
   ],
   "note": ""
  },
  {
   "property": "C109",
   "status": "proved",
   "theorems": [
    "C109_through_points",
    "C109_definite",
    "C109_any_points",
    "C109_smoothest",
    "C109_weight"
   ],
   "note": ""
  },
  {
   "property": "C110",
   "status": "proved",
   "theorems": [
    "C110_velocity",
    "C110_periodic"
   ],
   "note": ""
  },
  {
   "property": "C111",
   "status": "partial",
   "theorems": [
    "C111_selected",
    "C111_electrons_partial",
    "C111_electrons_refuted",
    "C111_empty_refuted",
    "C111_twice_refuted"
   ],
   "note": "Selection proved; electron count proved when no band jumps over the window between coarse points, refuted otherwise; empty windows and a second call are undefined."
  },
  {
   "property": "C112",
   "status": "proved",
   "theorems": [
    "C112_nearest",
    "C112_single",
    "C112_equal_bins"
   ],
   "note": ""
  },
  {
   "property": "C113",
   "status": "proved",
   "theorems": [
    "C113_grid",
    "C113_step",
    "C113_number",
    "C113_last_bin",
    "C113_refused"
   ],
   "note": ""
  },
  {
   "property": "C114",
   "status": "proved",
   "theorems": [
    "C114_average",
    "C114_bounded",
    "C114_frequency",
    "C114_cutoff",
    "C114_weight"
   ],
   "note": ""
  },
  {
   "property": "C115",
   "status": "proved",
   "theorems": [
    "C115_round_trip",
    "C115_spin",
    "C115_truncated"
   ],
   "note": ""
  },
  {
   "property": "C116",
   "status": "proved",
   "theorems": [
    "C116_rates",
    "C116_nonneg",
    "C116_linear",
    "C116_processes",
    "C116_unstable",
    "C116_edge"
   ],
   "note": ""
  },
  {
   "property": "C117",
   "status": "proved",
   "theorems": [
    "C117_symmetric",
    "C117_nonneg",
    "C117_invariant",
    "C117_dos",
    "C117_processes"
   ],
   "note": ""
  },
  {
   "property": "C118",
   "status": "proved",
   "theorems": [
    "C118_formula",
    "C118_undamped",
    "C118_symmetric",
    "C118_nonneg",
    "C118_phases",
    "C118_basis",
    "C118_uncoupled",
    "C118_processes"
   ],
   "note": ""
  },
  {
   "property": "C119",
   "status": "partial",
   "theorems": [
    "C119_formula",
    "C119_degenerate_refuted",
    "C119_conductivity",
    "C119_time_reversal",
    "C119_phases",
    "C119_processes",
    "C119_reciprocity_refuted",
    "C119_basis_refuted"
   ],
   "note": "Proved: closed forms, positivity of the conductivity, symmetry under time reversal, independence of phases and processes. Refuted for the code: finite values for degenerate bands, reciprocity, independence of the basis of degenerate bands."
  },
  {
   "property": "C120",
   "status": "proved",
   "theorems": [
    "C120_phonons",
    "C120_electrons",
    "C120_symmetric",
    "C120_nonneg",
    "C120_rotation",
    "C120_processes"
   ],
   "note": ""
  },
  {
   "property": "C121",
   "status": "partial",
   "theorems": [
    "C121_energy",
    "C121_charge",
    "C121_momentum",
    "C121_orthogonal",
    "C121_flat_refuted"
   ],
   "note": "Proved: norm one, direction, orthogonality, independence of processes. Refuted: the momentum eigenvector is not a number when all wavevectors have no component along a direction."
  },
  {
   "property": "C122",
   "status": "partial",
   "theorems": [
    "C122_search",
    "C122_exact",
    "C122_unique",
    "C122_few_refuted"
   ],
   "note": "Search, exact eigenvectors and uniqueness proved for at least ten relaxons and a full set; refuted (out of bounds) for fewer than ten relaxons or fewer relaxons than states."
  },
  {
   "property": "C123",
   "status": "partial",
   "theorems": [
    "C123_one",
    "C123_symmetric",
    "C123_damping",
    "C123_processes",
    "C123_longitudinal",
    "C123_shear_refuted"
   ],
   "note": "Proved: symmetries, damping, independence of processes, agreement of the longitudinal components with the relaxation time approximation. Refuted: shear components (momentum and velocity indices exchanged)."
  },
  {
   "property": "C124",
   "status": "partial",
   "theorems": [
    "C124_one",
    "C124_processes",
    "C124_diagonal",
    "C124_rta_refuted",
    "C124_few_refuted"
   ],
   "note": "Proved: symmetry, independence of processes, value for a diagonal matrix. Refuted: that value is not the relaxation-time viscosity (extra f(1-f), no spin degeneracy); fewer relaxons than states read out of bounds."
  },
  {
   "property": "C125",
   "status": "proved",
   "theorems": [
    "C125_drag",
    "C125_symmetric",
    "C125_conserved",
    "C125_nonneg",
    "C125_velocity"
   ],
   "note": ""
  },
  {
   "property": "C126",
   "status": "partial",
   "theorems": [
    "C126_roundtrip_partial",
    "C126_pools_partial",
    "C126_bunches_refuted",
    "C126_few_refuted"
   ],
   "note": "Proved for tensors held by every process with at most 2^31-1 elements, and for distributed tensors that each process writes in one piece; refuted for distributed tensors written in several pieces (gwanSliceStart = 0) and for more processes than lattice vectors. Missing: HDF5 built without MPI and the text format are not modelled."
  },
  {
   "property": "C127",
   "status": "partial",
   "theorems": [
    "C127_single",
    "C127_ordered_partial",
    "C127_pools",
    "C127_race_refuted",
    "C127_bcast_refuted"
   ],
   "note": "Complete file proved for one process and for schedules in which all openings come first; refuted for the other schedules, and for reading without pools by several processes."
  },
  {
   "property": "C128",
   "status": "proved",
   "theorems": [
    "C128_table",
    "C128_processes",
    "C128_units"
   ],
   "note": ""
  },
  {
   "property": "C129",
   "status": "partial",
   "theorems": [
    "C129_stars_partial",
    "C129_no_symmetries",
    "C129_corner",
    "C129_cells",
    "C129_nonnegative",
    "C129_gap",
    "C129_irreducible_refuted"
   ],
   "note": "Proved for meshes without symmetries and for stars whose cells have equal weights; refuted for a mesh reduced by inversion, because the cell of a point always has the point at its lower corner and cells are not mapped onto each other. The density of states applications reduce the mesh (dos_app.cpp:37, 71, 105)."
  },
  {
   "property": "C130",
   "status": "partial",
   "theorems": [
    "C130_labels_partial",
    "C130_same_label_refuted"
   ],
   "note": "Proved for segments at least as long as the spacing, a spacing of 1e-7 or more, and ends of each segment with different labels; refuted for a path whose only segment has equal labels at both ends. Missing: equal labels at the ends of an inner segment."
  },
  {
   "property": "C131",
   "status": "proved",
   "theorems": [
    "C131_tensor",
    "C131_mismatch"
   ],
   "note": "Proved for exact coordinates. Not modelled: text of phono3py_disp.yaml, HDF5 data sets, rounding of positions."
  },
  {
   "property": "C132",
   "status": "partial",
   "theorems": [
    "C132_anharmonic_partial",
    "C132_harmonic_partial",
    "C132_orthorhombic_anharmonic",
    "C132_orthorhombic_harmonic",
    "C132_skewed_refuted"
   ],
   "note": "Proved for lists of cells that hold the shortest images (reach) and distances whose ties are exact or well separated (resolved), and without the first condition for orthorhombic crystals. Refuted for a skewed cell: a pair of atoms inside the cell has weight zero everywhere; the harmonic code checks the totals and stops (C87), the reader of phono3py files does not and drops the pair. Missing: a bound on the skewness below which reach holds."
  },
  {
   "property": "C133",
   "status": "partial",
   "theorems": [
    "C133_lattice",
    "C133_rejected",
    "C133_free",
    "C133_monoclinic_refuted",
    "C133_flat_refuted"
   ],
   "note": "Proved for all indices but 13, for which it is refuted (qe_input_parser.cpp:297-302 use celldm(2) and celldm(4) in place of celldm(3)). Right-handedness is refuted for flat triclinic cells (l.341 accepts a vanishing volume)."
  },
  {
   "property": "C134",
   "status": "partial",
   "theorems": [
    "C134_file",
    "C134_cell_rejected",
    "C134_truncated_refuted",
    "C134_stars_refuted"
   ],
   "note": "Proved for complete files; rejection of bad cell parameters proved. Refuted for truncated files: qe_input_parser.cpp:518-546 never tests the result of getline, so a file without its last line is accepted and the missing force constant becomes a copy of the one before. A word in place of a value (the stars of Fortran) is read as zero (C134_stars_refuted). Text is modelled as lines of words already split and converted."
  },
  {
   "property": "C135",
   "status": "partial",
   "theorems": [
    "C135_file",
    "C135_energies",
    "C135_shifts_refuted"
   ],
   "note": "Reading proved for all files; energies without shifts proved (eigenvectors are conjugated). Refuted with shifts: the matrices are stored transposed but the shifts are not (l.979-986 against l.850-883), so the shift of (m,n) multiplies the element (n,m): a Hermitian matrix with energies 2, -2 becomes null."
  },
  {
   "property": "C136",
   "status": "partial",
   "theorems": [
    "C136_file",
    "C136_origin_refuted"
   ],
   "note": "Proved when the first vector of the file is not the origin and consecutive vectors differ. Refuted for a file that starts at the origin (only one lattice vector): the index stays -1 and the arrays are written out of bounds."
  },
  {
   "property": "C137",
   "status": "partial",
   "theorems": [
    "C137_full",
    "C137_compact_partial",
    "C137_compact_refuted"
   ],
   "note": "Proved for the full layout. For the compact layout proved only when every 3x3 block is symmetric: l.510-513 exchange the atoms but not the directions, so the array is transposed in the directions and frequencies change (refuted). Positions are rationals compared with the tolerance of the code."
  },
  {
   "property": "C138",
   "status": "partial",
   "theorems": [
    "C138_read",
    "C138_repeated_species_refuted",
    "C138_inequivalent_refuted"
   ],
   "note": "Proved when there are at most as many charge lines as species and as atoms. Refuted otherwise: in a crystal with two atoms of one species no file gives all charges (l.389 reads speciesNames by the number of the line), and a file with one line per inequivalent atom, as phonopy writes, gives charges to the wrong atoms."
  },
  {
   "property": "C139",
   "status": "partial",
   "theorems": [
    "C139_read",
    "C139_not_diagonal",
    "C139_indent_refuted"
   ],
   "note": "C139_read proves the reading for the layout of phono3py 2 (two blanks before \"- symbol:\"); masses in the file are not used by the program. C139_indent_refuted: with the list of atoms one level to the left, which is the same YAML, two-letter symbols are read as empty (the column of the \"#\" is compared with the constant 13 at l.157). The comparison with the primitive cell, which only prints a warning, is not modelled; numbers are read without rounding."
  },
  {
   "property": "C140",
   "status": "partial",
   "theorems": [
    "C140_pairs",
    "C140_ranges_partial",
    "C140_first_band_refuted",
    "C140_file_partial",
    "C140_bunches_refuted",
    "C140_few_refuted",
    "C140_serial_refuted",
    "C140_pools"
   ],
   "note": "C140_file_partial holds for the parallel HDF5 build, when every process has at least one pair and at most 125000000 values. Refuted beyond that: larger parts are written in pieces that all start at the first value (l.314), a process without pairs reads the first element of an empty vector (l.269), and the serial HDF5 build exchanges the arguments of allGatherv (l.331) so that the file holds only zeros. C140_ranges_partial: a range ending at band 0 is taken as all bands (C140_first_band_refuted). The interpolation itself is an oracle (C92-C95 model it)."
  },
  {
   "property": "C141",
   "status": "partial",
   "theorems": [
    "C141_names",
    "C141_accepted_partial",
    "C141_started_partial",
    "C141_smearing_refuted",
    "C141_transport_refuted",
    "C141_phel_refuted",
    "C141_plot_refuted",
    "C141_temperatures_refuted",
    "C141_bins_refuted"
   ],
   "note": "C141_accepted_partial carries as hypotheses what the checks leave out, C141_started_partial is for temperatures and dopings or chemical potentials given as lists. Refuted beyond that: the smearing method, an int, is never seen as missing; electron transport does not ask for the file of force constants that it reads, phonon-electron lifetimes do not ask for kMesh, the coupling plot compares the pair style with the name of a mesh style; a range of temperatures is refused although the sweep supports it; the number of EPA bins is not initialised."
  },
  {
   "property": "C142",
   "status": "partial",
   "theorems": [
    "C142_input",
    "C142_output_refuted",
    "C142_report",
    "C142_short",
    "C142_digits",
    "C142_empty_refuted"
   ],
   "note": "Refuted: with -out the output file is opened but everything is still printed on the screen (C142_output_refuted); a loop without steps converts the logarithm of zero to an int (C142_empty_refuted). Elapsed and remaining times are not modelled."
  },
  {
   "property": "C143",
   "status": "partial",
   "theorems": [
    "C143_read",
    "C143_crystal",
    "C143_missing_refuted",
    "C143_repeated_refuted",
    "C143_electrons_refuted"
   ],
   "note": "Numbers are exact rationals and the XML library is trusted. Refuted: files with fewer points than announced are completed with Gamma at energy zero, a list which repeats one wavevector and lacks another leaves mesh points without energies, and the number of electrons is cut to an integer."
  },
  {
   "property": "C144",
   "status": "partial",
   "theorems": [
    "C144_drift",
    "C144_symmetrized",
    "C144_rotation",
    "C144_gamma_refuted"
   ],
   "note": "Real arithmetic, T > 0 and, for phonons, energies above the chemical potential. Refuted at zero energy: an acoustic mode at Gamma has no finite drift (infinity times zero), C144_gamma_refuted."
  },
  {
   "property": "C145",
   "status": "partial",
   "theorems": [
    "C145_lists",
    "C145_hbar",
    "C145_energy_units",
    "C145_electrons_refuted",
    "C145_constant_refuted",
    "C145_relaxons_refuted",
    "C145_epa_refuted"
   ],
   "note": "Lists and the hbar relation are proved. Refuted: a constant relaxation time of t fs is written (and used) as t/(2 pi) fs; relaxon and EPA times are written 2 pi times larger than single mode times of the same rate; with an electron matrix that is not symmetrized no file is written."
  },
  {
   "property": "C146",
   "status": "partial",
   "theorems": [
    "C146_volume",
    "C146_reciprocal",
    "C146_atoms",
    "C146_symmetries",
    "C146_accepted",
    "C146_zero_coupling_refuted",
    "C146_line_refuted"
   ],
   "note": "Atoms, volume in two and three dimensions, duality, symmetries (under the contract of spglib, stated for the atoms it is given) and the exact set of accepted inputs are proved. Refuted: custom values of 0 are ignored, so isotopic disorder cannot be switched off; in one dimension the volume can be negative."
  },
  {
   "property": "C147",
   "status": "proved",
   "theorems": [
    "C147_lookup",
    "C147_history"
   ],
   "note": "All 109 rows are in the model; decimal literals are exact fractions."
  },
  {
   "property": "C148",
   "status": "partial",
   "theorems": [
    "C148_rotations",
    "C148_disentangled",
    "C148_mesh",
    "C148_repeated_refuted",
    "C148_truncated_refuted"
   ],
   "note": "Placement and product proved for all files with every wavevector. Refuted: a file that repeats a wavevector leaves a zero matrix at another; a truncated file is accepted and the last entry is repeated."
  },
  {
   "property": "C149",
   "status": "partial",
   "theorems": [
    "C149_rates_add",
    "C149_in_memory",
    "C149_in_memory_product",
    "C149_on_the_fly",
    "C149_on_the_fly_refuted",
    "C149_excluded"
   ],
   "note": "Rates add in the relaxation time approximation and, with the matrix in memory, in the iterative solver and in products with the matrix. Refuted when the matrix is not in memory: the fixed points of the iteration do not depend on the added rates. Rates themselves are an input; symmetries not used."
  },
  {
   "property": "C150",
   "status": "partial",
   "theorems": [
    "C150_constant_variational_refuted",
    "C150_phonon_accepted",
    "C150_electron_accepted",
    "C150_phonon_files",
    "C150_electron_files",
    "C150_distinct",
    "C150_order",
    "C150_names",
    "C150_matrix_computed",
    "C150_electron_constant",
    "C150_phonon_constant_refuted",
    "C150_interaction_check_refuted",
    "C150_nonpositive_time_refuted",
    "C150_no_iterations_refuted",
    "C150_misspelt_refuted"
   ],
   "note": "Acceptance, files, order and prefix of stopped runs proved for both applications. Refuted: phonon runs accept a constant relaxation time together with a solver (the variational one then shows twice the approximation), non-positive times, zero iterations and misspelt solver names. Numbers in the files are covered by other properties."
  },
  {
   "property": "C151",
   "status": "partial",
   "theorems": [
    "C151_sums",
    "C151_linewidths",
    "C151_nonnegative",
    "C151_all_points_partial",
    "C151_symmetry_refuted",
    "C151_difference",
    "C151_window_refuted"
   ],
   "note": "Proved: the exact sum that is computed for all schedules and batches, zero below the cutoff, not negative, equal to the mean over all points when transitions are constant on stars (so without symmetries). Refuted with symmetries; refuted that the electron window follows the temperature. The thermal factor is compared with the difference of populations. Couplings, smearing and energies at k + q are inputs."
  },
  {
   "property": "C152",
   "status": "partial",
   "theorems": [
    "C152_reverse",
    "C152_adaptive_reverse_refuted",
    "C152_adaptive_half_refuted",
    "C152_tamura",
    "C152_nonnegative"
   ],
   "note": "Formula, sign and reverse process proved (Gaussian smearing within six widths, see C42). Refuted for adaptive smearing: the rate and its reverse differ and the smearing is half of the mean of the two values. Reverse process with tetrahedra not stated."
  },
  {
   "property": "C153",
   "status": "partial",
   "theorems": [
    "C153_balance",
    "C153_never_overestimates",
    "C153_assignment_refuted",
    "C153_copied_coupling_refuted",
    "C153_copied_coupling_order_refuted"
   ],
   "note": "balance for all histories without assignments of Hamiltonians and without copies of electron-phonon interactions; the memory bound also with assignments; the excluded cases are refuted"
  },
  {
   "property": "C154",
   "status": "partial",
   "theorems": [
    "C154_elementwise",
    "C154_sizes",
    "C154_layouts_refuted",
    "C154_product",
    "C154_rectangular_partial",
    "C154_product_shape_refuted",
    "C154_symmetrize",
    "C154_nonsquare_stops"
   ],
   "note": "element-wise operations for every layout, products of square matrices with all flags, complete description of the real rectangular product, symmetrisation; mixed layouts and rectangular products refuted"
  },
  {
   "property": "C155",
   "status": "partial",
   "theorems": [
    "C155_components",
    "C155_norm_partial",
    "C155_frobenius_refuted",
    "C155_difference",
    "C155_inherited_difference_refuted",
    "C155_copy",
    "C155_units",
    "C155_copied_units_refuted",
    "C155_assignment_partial",
    "C155_assignment_refuted"
   ],
   "note": "difference of conductivities and norms for all sizes and values; the norm is not the documented Frobenius norm, inherited differences, units of copies and assignments between crystals refuted"
  },
  {
   "property": "C156",
   "status": "partial",
   "theorems": [
    "C156_same_calls",
    "C156_only_same_calls",
    "C156_error_everywhere",
    "C156_check",
    "C156_warnings",
    "C156_accepted",
    "C156_one_process",
    "C156_several_processes_refuted",
    "C156_check_by_all"
   ],
   "note": "all schedules and numbers of processes: end iff same collective calls, Error on all processes prints once and ends, accepted inputs run; that a refused input stops several processes is refuted (blocks for every schedule)"
  },
  {
   "property": "C157",
   "status": "partial",
   "theorems": [
    "C157_all",
    "C157_refused",
    "C157_failure",
    "C157_empty_refuted",
    "C157_some",
    "C157_check_refuted",
    "C157_request",
    "C157_symmetries_refuted",
    "C157_processes",
    "C157_complex_partial",
    "C157_complex_size_refuted",
    "C157_serial",
    "C157_serial_refused",
    "C157_serial_complex_refuted"
   ],
   "note": "partial: complex distributed matrices only up to 40000 rows and blocks of 1000; the property is false for the check of negative eigenvalues, for the count with symmetries and for complex matrices of one process (refuted theorems)."
  },
  {
   "property": "C158",
   "status": "partial",
   "theorems": [
    "C158_values",
    "C158_memory",
    "C158_bands",
    "C158_made",
    "C158_copy_refuted",
    "C158_arithmetic_refuted",
    "C158_large_refuted"
   ],
   "note": "partial: proved for construction, assignment, writing and destruction; the property is false for copy construction, for arithmetic and diagonalisation of Matrix (null pointer) and for serial matrices above INT_MAX elements (refuted theorems)."
  }
 ]
}