# Formal model of phoebe: design

## 1. Layout

* `properties.jsonl` - the properties, in terms of the API.
* `rocq/theories/` - the Coq development (logical name `Verif`):
  * `Base*.v` - outcome type, list/number lemmas, no phoebe content.
  * `M_*.v` - the model: Gallina functions, one per modelled C++ function, each with a comment
    citing file and lines in `/repo`, and the simplifications.
  * `S_*.v` - small specifications that do not use the model.
  * `L_*.v` - lemmas.
  * `P_*.v` - property theorems only (closed with `exact`), each with `Print Assumptions`
    and a concrete `Example` showing its hypotheses can be met.
* `MANIFEST.json` - property -> theorem names and status.
* `seeded/LOG.jsonl` - record of wrong programs tried against the theorems.

## 2. Modelling conventions

* C++ `int`/`size_t`: unbounded `Z` or `nat`, except where the property is about overflow; then a
  checked or wrapped operation is written out.
* C++ `/` and `%` on ints: `Z.quot`/`Z.rem` (truncating), kept as such in the model.
* `double`: exact rationals (`Q`, or canonical `Qc` when Leibniz equality matters) when the code
  compares, rounds or adds; Coq reals `R` where exp/sinh/sqrt occur. Rounding error is not modelled.
* `Error(...)` (program exit) and C++ undefined behaviour (out-of-range access, division by zero,
  null dereference) are distinct constructors of the outcome type `res`: `Ok x | Err | UB`.
* MPI: a parallel section is modelled as the family of per-rank computations indexed by
  `rank < size`; collectives are functions from the family of send buffers to receive buffers
  (the MPI standard's meaning, trusted). OpenMP: a loop with a critical/ordered merge is a fold over
  an arbitrary list of thread chunks.
* External libraries (MPI, BLACS/ScaLAPACK index tools, spglib, Eigen, std::regex) are modelled by
  their documented behaviour; each such function is marked `TRUSTED` in its comment.

## 3. Trusted base

* Coq 8.16.1 kernel (`coqc`; `coqchk` run once at the end).
* Axioms: none of our own. Theorems over `R` depend on the standard library's real-number axioms
  `ClassicalDedekindReals.sig_forall_dec`, `ClassicalDedekindReals.sig_not_dec`,
  `FunctionalExtensionality.functional_extensionality_dep` and, for some, `Classical_Prop.classic`.
  Everything else is closed under the global context. The exact list per theorem is in section 6.
* Opaque constants of standard-library modules that a checker may list as axioms because they come from
  sealed modules of the standard library loaded by our imports: `Coq.Reals.Rdefinitions.RbaseSymbolsImpl.*`
  and `RinvImpl.*` (the definitions of R, 0, 1, +, *, opp, <, inverse, with their characteristic equations)
  and `Coq.ssr.ssrunder.Under_rel.*` (seven constants, loaded by the standard library itself through its `Reals` files;
  no theorem depends on them).
* External algorithms enter as hypotheses about the particular matrix at hand (eigenvalues and eigenvectors returned by
  LAPACK/ScaLAPACK, solutions of linear systems), never as axioms; each such theorem has an `Example` that meets them.
* The transcription C++ -> Gallina, made by reading; nothing was executed.

## 4. Plan per property

| id | what is modelled | how it is proved |
|----|------------------|------------------|
| C01 | the four index functions, plus a checked-int version | Z division lemmas |
| C02 | `mod` with truncating `%` | Z |
| C03 | divideWork, divideWorkIter, workDivHelper | monotonicity of floor(n r/s), induction over ranks |
| C04 | gatherv/allGatherv on families of buffers | refinement to serial `map` |
| C05 | bigAllGatherV with communicator ranks | refutation for the pool case, positive for world |
| C06 | allReduceSum(in,out) with the early return | refutation at size 1, positive for size > 1 |
| C07 | communicator construction | Z division |
| C08 | getPointCoordinates / isPointStored (mesh case) over Q | exact arithmetic, round-trip |
| C09 | same | refutation by witness; the one-sided part as `_partial` |
| C10 | Point + and - on the mesh | refinement to addition in Z/m0 x Z/m1 x Z/m2 |
| C11 | binary searches over Q | sortedness invariant, induction on interval length |
| C12 | path constructor's sortedness flag, offset fold | refutation by witness |
| C13 | setActiveLayer range checks | refutation (clamp bug), positive for negatives |
| C14 | the equivalence loop with mutable `equiv` | loop invariant over prefix of points, group axioms |
| C15 | maps, lower_bound, divideWorkIter + allReduceSum | strictly increasing list lemmas |
| C16 | mapEquivalenceRotationIndex, both branches | same invariant + min_element |
| C17 | second call with stars not cleared | refutation by witness |
| C18 | buildIndices and offsets | prefix-sum lemmas |
| C19 | buildSymmetries, stateToBte, bteToState | prefix-sum lemmas |
| C20 | Window::apply energy branch | induction over bands |
| C21 | population branch | refutation (lowest temperature ignored), partial positive |
| C22 | builder loops with thread/rank merge | concatenation lemmas |
| C23 | block-cyclic layout, numroc, indxl2g, indxg2l | Z div/mod |
| C24 | getAllLocalRows with 0-based argument | refutation, positive for single block |
| C25-C28 | SMatrix | functional arrays |
| C29-C31 | VectorBTE | functional arrays, sums |
| C32-C35 | event-list model of the builders and dot | sums over lists in Qc |
| C36-C37 | symmetrizeCoupling, degeneracyAveragingLinewidths | sums over groups |
| C38 | Umklapp/Normal bookkeeping | induction over events |
| C39-C40 | a2Omega, set/getLinewidths | Qc / R algebra |
| C41-C43 | populations, smearing, tetrahedra | real analysis |
| C44-C45 | input parser on character lists | induction over strings |
| C46-C48 | StatisticsSweep | induction, bisection invariant |
| C49 | Wigner-Seitz construction | sums over grids |
| C50-C52 | utilities | induction |
| C53 | helper for third states | set lemmas |
| C54 | foldToBz, bzToWs | Q floor lemmas, refutation |
| C55 | FullBandStructure storage | functional arrays |
| C56 | datatypeHelper | Z division |
| C57 | rotIndex on meshes, star construction | group action on the mesh, witness for the refutation |
| C58 | setMesh, constructors | case analysis, witness |
| C59 | findMesh | sorted lists, Q |
| C60 | path constructor | induction over segments, Q |
| C61 | Window::apply, type nothing | induction, witness |
| C62 | ParallelMatrix::dot/norm over processes | sums over a partition, witness |
| C63-C64 | splitToBatches, estimateBatchSize, estimateNumBatches | induction, Z/Q division |
| C65-C66 | Omini-Sparavigna iteration in Qc | fixed points, contraction, witness of divergence |
| C67-C68 | conjugate gradient of both transport apps | Krylov orthogonality by simultaneous induction, variational inequality |
| C69 | stopping tests | case analysis over iterations, witnesses |
| C70-C73 | Onsager sums from populations, relaxons and EPA | Qc sums, matrix algebra, Cauchy-Schwarz |
| C74 | outputToJSON lists | lists indexed by calculation |
| C75 | relaxon sums with an eigenbasis oracle | orthonormality |
| C76 | specific heat | sums over stars |
| C77-C78 | buffers of d x d tensors, eigenvalue range test | index arithmetic, UB |
| C79-C80 | the simple and crystal sum rules, effective charges | sums over cells, Gram-Schmidt in Qc |
| C81-C86 | Wannier Hamiltonian on host and device, velocities, batches | complex sums over R, calculus (mean value theorem for the finite difference) |
| C87-C93 | Wigner-Seitz weights, dynamical matrix, long range terms, velocities of phonons | complex sums, discrete Fourier sums |
| C94-C95 | rates of the scattering events and reduction by symmetry | hyperbolic identities in R, event lists in Qc |
| C96-C98 | three-phonon couplings and ShengBTE reader | complex sums, functional arrays, UB for buffers |
| C99-C100 | electron-phonon couplings, pools, polar part | sums over partitions, gauge covariance |
| C101-C107 | Bloch to Wannier transformation, rotation loops, offset search, files | discrete Fourier sums, OpenMP schedules as interleavings |
| C108-C111 | Fourier interpolation of bands | LDLT oracle, stars, calculus, lists |
| C112-C117 | EPA averages, file, rates, projected velocities | Q, lists, processes |
| C118, C119 | interband terms of the Wigner transport equation (wigner_phonon_thermal_cond.cpp, wigner_electron.cpp) | R, complex numbers, results that may not be numbers |
| C120-C125 | viscosity: relaxation time approximation, relaxons, conserved eigenvectors, coefficients of the real-space solver (phonon_viscosity.cpp, electron_viscosity.cpp, viscosity_io.cpp) | R, sums over lists of states and of matrix elements owned by each process |
| C126, C127 | files of the electron-phonon coupling, formats 1 and 2 (qe_to_phoebe_utils.cpp, interaction_elph_parsing.cpp) | elements of any type, data sets as functions from positions, orders of the processes as permutations and interleavings |
| C128-C130 | density of states and labels of the path (dos_app.cpp, bands_app.cpp, delta_function.cpp getDOS) | R for densities, rationals for coordinates, processes as lists |
| C131, C132 | phono3py reader and Wigner-Seitz weights (ifc3_parser.cpp l.39-377 and 606-628, phonon_h0.cpp wsInit and wsWeight) | rationals for positions, R for force constants, maps keyed by indices |
| C133 | lattices of Quantum ESPRESSO (qe_input_parser.cpp getQELattice) | R; table of lengths and angles of the manual |
| C134-C136 | text readers of Quantum ESPRESSO and Wannier90 (qe_input_parser.cpp parsePhHarmonic, parseElHarmonicWannier) | files as lists of lines of words (integer, real or string); arrays as lists of writes; printers in S_qeio as specification |
| C137, C138 | phonopy files fc2.hdf5 and BORN (phonopy_input_parser.cpp l.21-34, 312-396, 447-527) | rationals for positions, R for values, any order of cells in the supercell |
| C139 | phono3py_disp.yaml (phonopy_input_parser.cpp l.70-262, utilities.cpp tokenize) | characters; printer of the layout in S_yaml as specification |
| C140 | coupling plot application (elph_plot_app.cpp l.36-339) | list of pairs, per-process writes into a data set (M_elphio), coupling as oracle, any order of processes |
| C141 | choice of application and checkRequirements (app.cpp, apps/*.cpp) | input record with unset values; case analysis, witnesses |
| C142 | command line and progress reports (io.cpp) | words, list of printed lines; induction over steps |
| C143 | XML reader of Quantum ESPRESSO (qe_input_parser.cpp l.566-806) | content of the nodes as records, rationals; findMesh and getIndex of M_points, injectivity by counting |
| C144 | drift.cpp l.3-58 | writes of every process in any order, sum over processes; composed with the numbering of C19 and the derivatives of C41 |
| C145 | files of relaxation times (scattering.cpp l.639-869, transport_epa_app.cpp l.306-379) | nested lists over the tables of C19, conversion constants in R |
| C146 | crystal.cpp l.11-321, points.cpp l.711-718 | real 3 x 3 matrices, spglib as an oracle with a stated contract; adjoint of the isometry by testing scalar products |
| C147 | periodic_table.h, periodic_table.cpp | the table as data; induction over histories of settings |
| C148 | qe_to_phoebe_wannier.cpp l.796-920 | lines of numbers with the semantics of >> and getline; induction over blocks, NoDup of the indices |
| C149 | phonon_transport_app.cpp l.70-99 with setLinewidths and offDiagonalDot | residual of one iteration in both storage modes; product with the changed diagonal; counterexample from builder events |
| C150 | phonon_transport_app.cpp l.20-480, electron_wannier_transport_app.cpp l.20-560, checks of scattering.cpp setup | run as a list of stages with an outcome; prefix and NoDup arguments over the stages; reports of the conjugate gradient with an empty matrix |
| C151 | phel_scattering.cpp l.9-364, window of phonon_transport_app.cpp l.455-470 | additions to the linewidths as a list, sums regrouped over processes, batches and states; counterexample with inversion on four points; mean value theorem for the thermal factor |
| C152 | ph_scattering.cpp l.22-43, 616-712 | real rates over the smearing functions of C42 and complex eigenvectors; masses cancelled by induction over the atoms |
| C153 | DeviceManager (common_kokkos.cpp:102-135) and the constructors, copies, assignments, destructors and getDeviceMemoryUsage of PhononH0, ElectronH0Wannier, Interaction3Ph, InteractionElPhWan; addShiftedVectors, cacheElPh, the assignment of parse | a state of live objects with named allocations; invariant over all operation lists: used = sum of the reports (balance), distinct live allocations <= used (also with assignments of Hamiltonians); counterexamples for assignments and for copied couplings |
| C154 | PMatrix.cpp:11-93 prod, 420-444 symmetrize; PMatrix.h:630-716 operators | buffers of all processes by rank; refinement to functions (row, col) -> element through `spread`; p?gemm and pdtran are trusted specifications on elements; counterexamples for mixed layouts and rectangular products |
| C155 | observable.cpp:4-140; constructors, copies, differences of SpecificHeat, PhononThermalConductivity, PhononViscosity, ElectronViscosity; print of the conductivity | arrays with bounds, references as names into a world of crystals and sweeps; induction over the loops (difference), sums of squares over all components (norm); counterexamples for inherited differences, copied units, assignments between crystals |
| C156 | exceptions.cpp, mpiController.cpp:108-127 finalize, 156-166 barrier, context.cpp:772-803 inputSanityCheck, 823-824 and 1159 printInputSummary, main.cpp | processes as lists of printed lines and collective calls; interleaving semantics in which a call returns when all processes make it; invariant (the remaining calls agree), progress, a decreasing measure, and the converse (only agreeing processes can end) |
| C157 | PMatrix.cpp:97-420 diagonalize (all, first k, complex), SMatrix.cpp:36-100, scattering.cpp:112-149 size of the matrix, 871-909 | LAPACK and ScaLAPACK routines as arguments, with their documented behaviour as hypothesis on the particular matrix; induction over the loop that prints eigenvalues; sortedness gives "k smallest" and "warned iff negative"; int overflow of work sizes; counterexamples for the check of negative eigenvalues, for the count with symmetries and for the complex eigenvectors of one process |
| C158 | Matrix.h:24-45, 109-303 (class Matrix), Matrix.cpp:1-84, SMatrix.h:195-301, bandstructure.cpp:17-101 | memory with blocks, owners and named variables; refinement of every list of statements to variables that hold values, with the invariant that each block has exactly one owner; UB of copy construction, arithmetic and of serial matrices above INT_MAX elements |

## 5. What cannot be expressed

Wall-clock performance, memory consumption, floating-point rounding of the numerical libraries, the
correctness of LAPACK/ScaLAPACK eigen-solvers and of spglib, file formats of other codes beyond what
the parsers themselves do.

## 6. Axioms per theorem (output of Print Assumptions)

**Closed under the global context** (461 theorems): C01_compress3_then_decompress3, C01_decompress3_then_compress3, C01_compress3_is_row_major, C01_compress2_then_decompress2, C01_decompress2_then_compress2, C01_compress2_is_row_major, C02_mod_is_remainder, C02_mod_is_periodic, C02_mod_large_modulus_refuted, C03_shares_partition_tasks, C03_shares_balanced, C03_divideWork_agrees, C03_workDivHelper_matches, C04_gathered_shares_are_serial, C05_bigAllGatherV_partial, C05_bigAllGatherV_pool_refuted, C06_allReduceSum_two_buffers_refuted, C06_allReduceSum_two_buffers_partial, C06_allReduceSum_in_place, C07_bad_pool_size_stops, C07_pools_tile, C07_pool_coordinates_identify_process, C08_node_order, C08_lookup_of_coordinates, C08_coordinates_distinct, C08_every_node_found, C09_off_mesh_rejected_refuted, C09_off_mesh_rejected_partial, C09_accepted_is_nearest_node, C10_sum_conserves_momentum, C10_difference_conserves_momentum, C10_sum_commutes, C10_sum_associates, C10_sum_then_difference, C10_hasUmklapp, C10_shifted_mesh_refuted, C11_active_lookup, C11_fine_mesh_refuted, C11_unsorted_filter_refuted, C12_path_lookup_refuted, C12_shifted_filter_refuted, C12_unsorted_list_lookup_partial, C13_range_check_refuted, C13_full_size_filter_refuted, C13_negative_refused_partial, C14_orbits_and_stars, C14_mesh_group_acts, C15_index_maps_inverse, C15_irreducible_iterators, C16_rotations_of_the_star, C16_rotation_to_irreducible, C16_rotation_with_velocities, C17_recompute_refuted, C17_recompute_partial, C18_state_numbering, C18_velocity_slots, C18_eigenvector_slots, C19_bte_numbering, C19_irreducible_states_iterator, C19_full_bte_numbering, C19_tables_of_points_qualify, C20_energy_window, C20_energy_limits, C20_mu_window_contains, C22_kept_points_independent_of_ranks_and_threads, C22_windows_qualify, C22_band_counts, C22_energies_independent_of_ranks, C22_velocities_independent_of_ranks, C22_eigenvectors_independent_of_ranks, C23_constructor_layout, C23_one_owner, C23_global_to_local_to_global, C23_local_to_global_to_local, C23_local_states_partition, C23_storage_size, C23_square_grid, C23_write_history, C23_nonlocal_reads_zero, C24_local_rows_refuted, C24_local_cols_refuted, C24_local_rows_partial, C24_local_cols_partial, C24_default_layout_partial, C25_write_history, C25_write_then_read, C25_out_of_range_stops, C25_new_matrix_is_zero, C25_index_maps_inverse, C25_all_states, C26_eye_refuted, C26_eye_partial, C26_eye_of_new_matrix, C26_distributed_eye, C26_nonsquare_stops, C27_symmetrize, C27_symmetrize_consequences, C27_nonsquare_stops, C28_transposed_rectangular_refuted, C28_prod_partial, C28_incompatible_stops, C29_index_maps_inverse, C29_elementwise, C29_broadcast, C29_mismatch_stops, C29_reciprocal, C29_scalings, C29_canonical_round_trip, C29_new_vector, C30_vector_times_matrix, C30_misaligned_stops, C30_epa_matrix_refuted, C31_exclusion_refuted, C31_dot_partial, C31_schedule_independent, C32_products_agree, C32_products_agree_electrons, C32_phonon_events, C32_electron_events, C33_setup_layout, C33_setup_refused, C33_memory_linewidths, C33_memory_elements, C33_fly_linewidths, C33_fly_product, C34_phonon_pairs, C34_electron_pairs, C34_matrix_pairs, C34_pools_in_step, C34_dummies_skipped, C34_phonon_electron_refuted, C35_memory, C35_on_the_fly, C35_modes_differ_refuted, C36_average_over_blocks, C36_chain_refuted, C37_average_partial, C37_threshold, C37_second_calculation_refuted, C37_chain_refuted, C38_sum_partial, C38_sum_other_calculations, C38_memory_refuted, C38_excluded_refuted, C40_constant_time_refuted, C43_equal_volumes, C44_empty_line, C44_ignorable_line_partial, C44_trailing_comment_partial, C44_accepted, C44_settings, C44_order_partial, C44_order_refuted, C44_semicolon_in_comment_refuted, C44_comment_in_block_refuted, C44_end_in_comment_refuted, C44_blank_after_block_name_refuted, C44_blanks, C44_crystal, C44_path, C45_bool, C45_int, C45_double, C45_double_list, C45_int_list, C45_string_list, C45_list_brackets, C45_string, C45_unquoted, C45_keys, C45_window, C45_constants, C45_units, C45_bool_refuted, C45_trailing_text_refuted, C45_units_refuted, C45_short_mesh_refuted, C46_one_calculation_per_request, C46_copy, C48_rounding_never_ends_refuted, C48_rounding_end_point_refuted, C49_weights, C49_withShift_refuted, C50_findMaxRelativeDifference_refuted, C50_findMaxRelativeDifference_is_minimum, C51_batches, C51_batches_overflow, C51_active_batches, C51_splitVector, C51_splitVector_zero_chunk_never_ends, C52_tokenize_spec, C53_third_points, C53_cache_partial, C53_cache_gap_refuted, C54_foldToBz_equivalent, C54_foldToBz_idempotent, C54_foldToBz_canonical, C54_bzToWs_equivalent, C54_bzToWs_minimal_partial, C54_bzToWs_minimal_refuted, C55_state_numbering, C55_energies_stored, C55_velocities_stored, C55_group_velocity, C55_eigenvectors_stored, C55_nonlocal_access_stops, C55_iterators_are_local, C55_iterators_join, C55_more_processes_than_points_stops, C56_datatypeHelper_lossless, C57_stars_refuted, C57_stars_partial, C57_cubic_meshes_qualify, C58_offset_check_refuted, C58_sizes_checked_partial, C59_findMesh_recovers_mesh, C60_path_contains_extrema_partial, C60_short_segment_refuted, C61_no_window_energies_refuted, C61_no_window_partial, C62_single_process_dot_refuted, C62_dot_partial, C63_device_batches_partial, C63_no_points_refuted, C64_batch_size, C64_batches_partial, C64_batches_refuted, C65_phonons_residual, C65_electrons_residual, C65_fixed_points, C65_starting_point, C65_excluded, C66_convergence_partial, C66_divergence_refuted, C67_exact, C67_residual, C67_functional_grows, C67_solution_maximises, C67_solution_unique, C67_solution_kept, C68_formulas_agree, C68_symmetric, C68_positive, C68_electrons_monotone, C68_phonons_refuted, C68_phonons_partial, C69_exit, C69_not_converged, C69_test_partial, C69_all_components_refuted, C69_no_iterations_refuted, C70_open_circuit_partial, C70_exact_solution_refuted, C70_mobility, C71_symmetric, C71_reciprocity, C71_conductivity_positive, C71_thermal_conductivity_positive, C71_single_energy, C71_phonons_symmetric, C71_phonons_positive, C72_electrons, C72_distribution_independent, C72_phonons, C72_views, C73_sums_partial, C73_reciprocity_refuted, C73_single_energy_refuted, C74_lists_partial, C74_mobility_refuted, C75_solution, C76_sum, C76_positive, C77_low_dimensions_refuted, C78_some_eigenvalues_refuted, C79_forces, C79_others_unchanged, C79_idempotent, C79_charges_simple, C79_charges_crystal, C79_charges_same, C79_names, C80_symmetric_partial, C80_idempotent_partial, C80_forces_refuted, C85_groups, C85_enumeration, C86_batches, C86_no_points_refuted, C87_weights, C87_weights_symmetric, C94_absorption_energy, C94_decay_energy, C94_reverse_process, C94_symmetric_rates, C94_isotopes, C94_electron_number, C95_product_partial, C95_symmetries_partial, C95_symmetries_refuted, C107_offset_partial, C107_offset_refuted, C107_fewer_bands_refuted, C108_vectors, C108_refused, C111_selected, C111_electrons_partial, C111_electrons_refuted, C111_empty_refuted, C111_twice_refuted, C112_nearest, C112_single, C112_equal_bins, C113_grid, C113_step, C113_number, C113_last_bin, C113_refused, C114_average, C114_bounded, C114_frequency, C114_cutoff, C114_weight, C115_round_trip, C115_spin, C115_truncated, C116_rates, C116_nonneg, C116_linear, C116_processes, C116_unstable, C116_edge, C117_symmetric, C117_nonneg, C117_invariant, C117_dos, C117_processes, C126_roundtrip_partial, C126_pools_partial, C126_bunches_refuted, C126_few_refuted, C127_single, C127_ordered_partial, C127_pools, C127_race_refuted, C127_bcast_refuted, C129_corner, C129_cells, C130_labels_partial, C130_same_label_refuted, C132_anharmonic_partial, C132_harmonic_partial, C132_orthorhombic_anharmonic, C132_orthorhombic_harmonic, C136_file, C136_origin_refuted, C138_repeated_species_refuted, C139_read, C139_not_diagonal, C139_indent_refuted, C140_pairs, C140_ranges_partial, C140_first_band_refuted, C140_file_partial, C140_bunches_refuted, C140_few_refuted, C140_serial_refuted, C140_pools, C141_names, C141_accepted_partial, C141_started_partial, C141_smearing_refuted, C141_transport_refuted, C141_phel_refuted, C141_plot_refuted, C141_temperatures_refuted, C141_bins_refuted, C142_input, C142_output_refuted, C142_report, C142_short, C142_digits, C142_empty_refuted, C143_read, C143_crystal, C143_missing_refuted, C143_repeated_refuted, C143_electrons_refuted, C145_lists, C147_lookup, C147_history, C149_rates_add, C149_in_memory, C149_in_memory_product, C149_on_the_fly, C149_on_the_fly_refuted, C149_excluded, C150_constant_variational_refuted, C150_phonon_accepted, C150_electron_accepted, C150_phonon_files, C150_electron_files, C150_distinct, C150_order, C150_names, C150_matrix_computed, C150_electron_constant, C150_phonon_constant_refuted, C150_interaction_check_refuted, C150_nonpositive_time_refuted, C150_no_iterations_refuted, C150_misspelt_refuted, C151_sums, C151_linewidths, C151_nonnegative, C151_all_points_partial, C151_symmetry_refuted, C153_balance, C153_never_overestimates, C153_assignment_refuted, C153_copied_coupling_refuted, C153_copied_coupling_order_refuted, C154_elementwise, C154_sizes, C154_layouts_refuted, C154_product, C154_rectangular_partial, C154_product_shape_refuted, C154_symmetrize, C154_nonsquare_stops, C155_components, C156_same_calls, C156_only_same_calls, C156_error_everywhere, C156_check, C156_warnings, C156_accepted, C156_one_process, C156_several_processes_refuted, C156_check_by_all, C157_all, C157_refused, C157_failure, C157_empty_refuted, C157_some, C157_check_refuted, C157_request, C157_symmetries_refuted, C157_processes, C157_complex_partial, C157_complex_size_refuted, C157_serial, C157_serial_refused, C157_serial_complex_refuted, C158_values, C158_memory, C158_bands, C158_made, C158_copy_refuted, C158_arithmetic_refuted, C158_large_refuted

**`ClassicalDedekindReals.sig_forall_dec`** (12 theorems): C40_wrong_shape, C46_electron_dopings_partial, C46_electron_chemical_potentials_partial, C46_phonons, C46_both_given_refuted, C84_wavevectors, C131_mismatch, C132_skewed_refuted, C137_full, C137_compact_partial, C138_read, C138_inequivalent_refuted

**`ClassicalDedekindReals.sig_forall_dec`, `FunctionalExtensionality.functional_extensionality_dep`** (67 theorems): C39_electrons_refuted, C40_get_after_set_partial, C40_get_after_set_electrons, C40_times_after_set, C40_matrix_after_set, C40_electrons_refuted, C43_tetrahedra_cover_the_cell, C43_tetrahedra_do_not_overlap, C43_weight_nonnegative, C43_weight_support, C43_cell_normalised_partial, C43_band_normalised_partial, C43_small_weights, C43_flat_band_refuted, C47_bisection_brackets, C47_bisection_stops, C47_fermi_level_count, C48_sweep_partial, C48_not_positive_step_refuted, C84_phases, C85_hermitian, C85_diagonal, C85_trace, C85_others_unchanged, C85_device_host, C92_hermitian, C92_velocity, C98_read_back_partial, C98_unequal_cells_refuted, C103_rotation, C103_static_partial, C103_threads_refuted, C106_product, C120_phonons, C120_electrons, C120_symmetric, C120_nonneg, C120_rotation, C120_processes, C122_search, C122_exact, C122_unique, C122_few_refuted, C125_drag, C125_symmetric, C125_conserved, C125_nonneg, C125_velocity, C128_table, C128_processes, C128_units, C129_stars_partial, C129_no_symmetries, C129_nonnegative, C129_gap, C129_irreducible_refuted, C131_tensor, C135_file, C137_compact_refuted, C148_rotations, C148_disentangled, C148_mesh, C148_repeated_refuted, C148_truncated_refuted, C155_inherited_difference_refuted, C155_units, C155_copied_units_refuted

**`ClassicalDedekindReals.sig_forall_dec`, `ClassicalDedekindReals.sig_not_dec`, `FunctionalExtensionality.functional_extensionality_dep`** (149 theorems): C21_discards, C39_elements, C39_twice, C39_symmetric, C39_linewidths_partial, C39_other_processes_refuted, C39_symmetries_refuted, C41_fermi_dirac, C41_zero_temperature, C41_fluctuations_electrons, C41_dnde_is_derivative_electrons, C41_dndt_is_derivative_electrons, C41_symmetrized_derivatives, C41_electron_hole, C42_gaussian_even_refuted, C42_adaptive_even, C42_adaptive_velocity_even, C42_adaptive_nonnegative, C47_impossible_doping_rejected, C47_processes_differ_refuted, C47_count_schedule_independent, C47_fermi_level_on_band_refuted, C81_hermitian, C81_hermitian_shifts, C81_periodic, C81_periodic_shifts, C81_time_reversal, C81_null_shifts, C82_same_without_shifts, C82_shifts_out_of_bounds_refuted, C82_shifts_refuted, C83_berry_connection_refuted, C84_hermitian, C84_host_device_partial, C84_gradient_is_derivative, C87_fourier, C87_periodic, C88_hermitian, C88_symmetrisation_idle, C88_reversal, C88_same_frequencies, C89_device, C90_acoustic, C90_acoustic_polar, C90_acoustic_exactly, C90_acoustic_tensor_charges_refuted, C91_same, C91_square, C91_order, C91_mass_normalised, C92_root, C92_phases, C93_dipole_refuted, C96_couplings_partial, C96_squared_weights, C96_weights_refuted, C96_batches, C96_outside_refuted, C97_phases, C97_degenerate_1, C97_degenerate_2, C97_degenerate_3, C97_opposite, C97_emission, C97_periodic, C97_translation, C99_coupling, C99_distribution, C99_degenerate, C99_batches, C100_froehlich_refuted, C100_coupling_refuted, C100_gamma, C101_round_trip, C101_processes, C102_bands, C104_distributed, C104_few_vectors_refuted, C105_distributed_partial, C105_at_once_partial, C105_disentangled_refuted, C106_bands_read_partial, C106_disentangled_refuted, C109_through_points, C109_definite, C109_any_points, C109_smoothest, C109_weight, C110_velocity, C110_periodic, C118_undamped, C118_phases, C118_processes, C119_formula, C119_degenerate_refuted, C119_time_reversal, C119_phases, C119_processes, C119_basis_refuted, C121_energy, C121_charge, C121_momentum, C121_orthogonal, C121_flat_refuted, C123_one, C123_symmetric, C123_damping, C123_processes, C123_longitudinal, C123_shear_refuted, C124_one, C124_processes, C124_diagonal, C124_rta_refuted, C124_few_refuted, C133_lattice, C133_rejected, C133_free, C133_monoclinic_refuted, C133_flat_refuted, C134_file, C134_cell_rejected, C134_truncated_refuted, C134_stars_refuted, C135_energies, C135_shifts_refuted, C144_gamma_refuted, C145_hbar, C145_energy_units, C145_electrons_refuted, C145_constant_refuted, C145_relaxons_refuted, C145_epa_refuted, C146_volume, C146_reciprocal, C146_atoms, C146_symmetries, C146_accepted, C146_zero_coupling_refuted, C146_line_refuted, C152_adaptive_reverse_refuted, C152_adaptive_half_refuted, C152_tamura, C155_norm_partial, C155_frobenius_refuted, C155_difference, C155_copy, C155_assignment_partial, C155_assignment_refuted

**`ClassicalDedekindReals.sig_forall_dec`, `ClassicalDedekindReals.sig_not_dec`, `Classical_Prop.classic`, `FunctionalExtensionality.functional_extensionality_dep`** (38 theorems): C21_population_window_partial, C21_phonons, C21_population_window_refuted, C41_bose_einstein, C41_range, C41_fermi_decreases, C41_bose_decreases, C41_fluctuations_phonons, C41_fluctuations_phonons_refuted, C41_dnde_is_derivative_phonons, C41_dndt_is_derivative_phonons, C41_detailed_balance_phonons, C41_detailed_balance_electron_phonon, C42_gaussian_even_partial, C42_gaussian_nonnegative, C47_search_crossing, C47_count_matched_partial, C47_doping_round_trip_partial, C47_search_succeeds, C47_zero_temperature_succeeds, C47_zero_temperature_count_refuted, C84_near_gamma_refuted, C84_derivative_error, C105_polar_refuted, C118_formula, C118_symmetric, C118_nonneg, C118_basis, C118_uncoupled, C119_conductivity, C119_reciprocity_refuted, C144_drift, C144_symmetrized, C144_rotation, C151_difference, C151_window_refuted, C152_reverse, C152_nonnegative

## 7. What is modelled and what is not

| file in /repo/src | modelled | not modelled |
|---|---|---|
| utilities.h/.cpp | index functions, mod, findMaxRelativeDifference, string and list helpers used by the parsers | memory reporting |
| mpi/mpiController.h/.cpp | divideWork, divideWorkIter, work division helper, gathers, reductions, big messages, communicators, datatypes | initialisation, timing, error abort |
| points.h/.cpp | mesh, path and list constructors, lookup, point addition, active layer, irreducible points, stars, folding, findMesh | printing |
| bands/bandstructure, active_bandstructure, window | indices of states and Bloch states, windows, builders with the merge over processes and threads, symmetry maps, storage | velocity/eigenvector symmetrisation of active bands, BTE index printing |
| algebra/SMatrix, PMatrix, Matrix | layout (BLACS), local/global indices, serial algebra, eye, dot, norm, products up to the ScaLAPACK call | the ScaLAPACK/LAPACK algorithms |
| bte/vector_bte, vector_epa | storage, arithmetic, dot, matrix product, populations | file output |
| bte/scattering, ph_scattering, el_scattering, phel_scattering | iterators, event accumulation in both storage modes, dot products, linewidths, symmetrisation, Omega representation, rates of processes | relaxon file output, adaptive smearing heuristics beyond the formula, coupling device code |
| bte/helper_3rd_state, helper_el_scattering | lists of third points, caches | polar caches |
| bte/drift | drift as a given vector | constructor loops |
| particle, delta_function, statistics_sweep | populations and derivatives, gaussian, adaptive, tetrahedra, sweep construction, chemical potential search | symmetrised adaptive scheme |
| context, parser helpers | reading of the input file, blocks, values, units, crystal and path blocks | printing of the summary |
| crystal | Wigner-Seitz vectors with and without shifts | spglib call, symmetry of loaded operations |
| harmonic/electron_h0_wannier, harmonic.cpp | Hamiltonian (host, device, shifts), Berry connection, velocities, degenerate velocities, batches | diagonalisation |
| harmonic/phonon_h0, phonon_h0_kokkos, phonon_h0_sum_rule | weights, short and long range parts, dynamical matrix, frequencies, velocities, sum rules, device version, batches | diagonalisation, printing |
| harmonic/electron_h0_fourier | all | LDLT factorisation |
| interaction/interaction_3ph, interaction_elph, interaction_epa | constructors, caches, couplings, batches, polar part, EPA lookup and file | HDF5 reading |
| parser/ifc3_parser | ShengBTE reader, phono3py reader from the data sets on (M_phono3py) | HDF5 calls |
| observable/onsager, phonon_thermal_cond, specific_heat | sums, tensors, relaxons, JSON lists | viscosities' output, unit printing |
| observable/phonon_viscosity, electron_viscosity, viscosity_io | relaxation-time and relaxon viscosities, conserved eigenvectors, search of their relaxons, Du and Wji0 | printing, JSON, unit conversions |
| observable/wigner_phonon_thermal_cond, wigner_electron | interband tensors, sums over processes | printing |
| apps/phonon_transport_app, electron_wannier_transport_app | iterative and variational solvers, stopping | order of calls, relaxon selection |
| apps/qe_to_phoebe_wannier, elph_qe_to_phoebe_app, qe_to_phoebe_epa | transformation, rotation, disentanglement, offset, long range part, EPA averages and file | HDF5 output, reading of QE files |
| apps/transport_epa_app | grid, projected velocities, density of states, rates | JSON output |
| interaction/interaction_elph_parsing, apps/qe_to_phoebe_utils | writers and readers of the coupling files of formats 1 and 2 with parallel HDF5 | serial HDF5, text format, test functions |
| apps/dos_app, bands_app | table of energies and densities, its division among processes, units; labels of the path | order of calls, JSON output |
| parser/qe_input_parser | lattices, force constants, Wannier90 Hamiltonian and shifts | splitting of text into words, XML reader |
| apps/elph_plot_app | pairs, band ranges, division of work, both HDF5 writers (M_plot) | interpolation calls (oracle), points and ranges data sets, checkRequirements |
| apps/app, apps/*::checkRequirements | choice by name and input checks (M_inputs) | the calls made by each app after its checks |
| io | options -in and -out, loop reports (M_io) | times, memory report, welcome text |
| parser/qe_input_parser parseElHarmonicFourier | content of the XML nodes to mesh, energies, crystal, context (M_xml) | XML library, text to number, rounding |
| bte/drift | both driving terms (M_drift) | Vector0 (not called) |
| bte/scattering outputToJSON, relaxonsToJSON; EPA outputToJSON | lists and units (M_output) | JSON text, wavevector coordinates, temperatures |
| parser/phonopy_input_parser | force constants, BORN file, phono3py_disp.yaml (M_yaml) | warning about the primitive cell, HDF5 calls, disp_fc2.yaml-style older files |
| lifetimes apps, io, app, mpiHelper, periodic_table | none | all |

## 8. Findings

Places where the faithful model does not have the property expected of it. Each is the content of a theorem ending in
`_refuted` or of a theorem of the property named, unless marked "read" (seen while reading, not formalised).

* points.cpp: deviations of the components are added with sign, off-mesh points accepted (C09); meshes above 1000 points and unsorted filters (C11); path and shifted filtered lookups (C12); range checks of setActiveLayer (C13); stars kept from a previous call (C17); stars on meshes without the symmetry (C57); offsets of 1 or more (C58); short path segments lose their end (C60).
* mpiController: bigAllGatherV in pools (C05); two-buffer allReduceSum on one rank (C06).
* window.cpp: intermediate chemical potentials (C21); window "nothing" returns band indices as energies (C61).
* PMatrix/SMatrix: getAllLocalRows/Cols (C24); serial eye() (C26); transposed rectangular prod (C28); dot on one process (C62); read: complex SMatrix diagonalize returns zero eigenvectors, Matrix.h copy constructor dereferences null, processes outside of the grid get the size of the last one.
* vector_bte/vector_epa: excluded modes compared by state index (C31); VectorEPA times matrix assigns (C30); read: VectorEPA::dot size, glob2Loc order against StatisticsSweep.
* scattering: phonon-electron pools (C34), low-memory diagonal (C35), chains of degeneracies (C36, C37), other calculations not averaged (C37), Umklapp/Normal in memory mode (C38), a2Omega on several processes, with symmetries and for electrons (C39), linewidths of electrons and constant relaxation time (C40), in-scattering between equivalent states (C95); read: first adaptive smearing value overwritten.
* particle/delta_function/statistics_sweep: bosons below the chemical potential (C41), one-sided Gaussian cutoff (C42), flat bands (C43), dopings and chemical potentials both given (C46), corner cases of the search (C47), steps not positive or tiny (C48).
* context.cpp: corner cases of comments and blocks (C44), values with trailing text, booleans, units, short lists (C45).
* crystal.cpp: inverted test in the shifted Wigner-Seitz construction (C49). utilities.cpp: minimum instead of maximum (C50, C69).
* helper caches with gaps (C53); bzToWs in skewed cells (C54); batches for processes without points (C63, C86); estimateNumBatches (C64).
* solvers: divergence for positive definite matrices (C66), phonon variational value (C68), zero iterations (C69).
* onsager.cpp: tensors beyond the RTA (C70), EPA sign (C73), mobility list (C74), buffers in low dimensions (C77), relaxon range test (C78).
* phonon_h0: crystal sum rule index order (C80), device velocities near Gamma (C84), tensor charges (C90), constants.h `fourPi = 2 pi` (C93, C100); read: copy constructor omits directUnitCell and dimensionality.
* electron_h0_wannier: shifted device path (C82), Berry connection always out of bounds (C83).
* interaction_3ph: weights applied twice, empty calls, more third than second cells (C96); ifc3_parser: unequal numbers of cells (C98).
* qe_to_phoebe_wannier: nowait loops (C103), more processes than vectors (C104), conjugated overlap (C105), dropped bands (C106), offset (C107).
* electron_h0_fourier: trimBands (C111). EPA: equal bins (C112), last bin (C113), normalisation (C114), truncated files (C115), unstable modes and edges of the grid (C116).
* wigner_electron: degenerate bands divide zero by zero, L_TE has the opposite sign of the band term, L_ET and L_TT are twice too large (C119). wigner_phonon_thermal_cond: equal energies with infinite relaxation times (C118).
* viscosity: momentum and velocity indices exchanged in the phonon relaxons (C123); squared f(1-f) and missing spin factor in the electron relaxons, eigenvalue read before its bound is tested (C124); ten products printed whatever the number of relaxons, products written out of bounds for a subset of relaxons (C122); single mesh point along a direction (C121).
* coupling files: pieces of a distributed tensor (C126), more processes than lattice vectors (C126), truncation by every process and broadcast of the head's tensor in format 2 (C127). Not modelled: without HDF5 the code does not compile (constkMesh is undeclared in the call of writeElPhCouplingNoHDF5).
* delta_function getDOS: on a mesh reduced by symmetry, as all three density of states applications do, the density differs from that of the full mesh (C129). bands_app: equal labels at both ends of the last segment read past the list of ends (C130).
* ifc3_parser, phono3py: in skewed cells the weights of a pair can vanish everywhere, and unlike the harmonic code the reader does not check their sum (C132).
* qe_input_parser getQELattice: index 13 uses the wrong parameters, flat triclinic cells are accepted (C133).
* qe_input_parser: a truncated file of force constants is accepted, the missing values are copies of the last one read (C134). The Wannier90 Hamiltonian is stored transposed, the Wigner-Seitz shifts are not, so energies with wsVecFileName are wrong (C135). A wsvec.dat file that starts with the origin writes out of bounds (C136).
* phonopy_input_parser: two-letter symbols are lost when the atoms of phono3py_disp.yaml are listed without indentation (C139). The compact layout of force constants is read with exchanged directions (C137). Born charges of crystals with several atoms of one species are never complete, and the head reads past the list of species (C138).
* elph_plot_app: later pieces repeat the first values, more processes than pairs, only zeros in the serial HDF5 build, the first band alone cannot be requested (C140); read: checkRequirements compares the pair style with the name of a mesh style, so with a path kMesh is required instead of the path.
* app checks: see C141. io: -out has no effect on the output (C142). qe_input_parser XML: incomplete and repeated points are accepted (C143).
* files of relaxation times: constant times are divided by 2 pi, relaxon and EPA times are 2 pi larger than single mode times (C145).
* crystal: custom isotope couplings of 0 are ignored; the one dimensional volume has a sign (C146). Read: the header says that lattice vectors are rows, that the reciprocal cell lacks 2 pi and that symmetries are Cartesian; the code has columns, includes 2 pi and stores fractional rotations.
* setupRotationMatrices: repeated wavevectors and truncated files are accepted (C148).
* phonon transport with an electron-phonon file: when the scattering matrix is not in memory the rates due to electrons enter the relaxation time approximation, but the populations at which the iterative solver stops changing solve the equation without them (C149).
* course of a transport run: with a constant relaxation time the variational solver of phonons shows at every step twice the conductivity of the relaxation time approximation; misspelt solver names, solvers without iterations and non-positive constant times are accepted (C150).
* linewidths of phonons due to electrons: with symmetries the sum over electron points of one phonon is replaced by irreducible points times the size of their stars, which is not the sum over all points (inversion on four points: a factor of 2); electron states farther than 1.25 times the largest phonon energy from the chemical potential are dropped whatever the temperature (C151).
* isotopes with adaptive smearing: the value with the velocity of the second state is overwritten, then halved; rates are half of the intended ones for equal velocities and differ between a process and its reverse (C152).
* C153: views are names of allocations with sizes; contents, the warning for low memory and the temporary views of the kernels (never reported to the manager) are not modelled; amounts are integers. Kokkos::realloc to equal sizes is taken to allocate anew. cacheElPh on an interaction without coupling is excluded.
* C154: ScaLAPACK's p?gemm and pdtran are trusted on whole matrices (M_pmatrix.pgemm, psymmetrize), including that a submatrix larger than its matrix stops the program; the asserts of prod are taken as active; the eigensolvers of PMatrix.cpp:95-417 are not modelled.
* C155: the bands behind an observable and the context are left out; the result of operator- is taken to be returned without a copy (guaranteed by no standard for a named local, done by all compilers: a copy would lose the units of the conductivity).
* the norm of an observable is documented as the Frobenius norm but divided by the number of components; the difference of two specific heats or viscosities writes to an array that was not allocated; a copied conductivity (phonon_transport_app.cpp:204, 261) has no units; an assignment replaces the crystal behind the target (C155).
* C156: only calls on the world communicator; a collective call is taken to return when all processes make the same call, and calls of different kinds never match (MPI: erroneous). The events of an application are an input, with the same collective calls on all processes.
* an input that must be refused (variational or relaxons with symmetries) is refused by the first process only, because the check sits behind an early return; with more than one process the others start the application and the run hangs (C156).
* C157: the routines pdsyevd, pdsyevr, pzheev, dsyev and zheev are arguments of the model; theorems assume for the matrix at hand what their documentation says (ascending eigenvalues, info = 0 on success). The spectrum is a list of rationals; that its members are eigenvalues of the matrix is part of the trusted routine.
* the check of negative eigenvalues before computing the first k relaxons ignores eigenvalues below -1 and up to three negative ones, and warns of four eigenvalues that are merely zero; asking for as many eigenvalues as states with symmetries returns three times as many; SerialMatrix<complex>::diagonalize returns zero eigenvectors; the complex distributed one overflows an int from 46341 rows on; an empty matrix reads outside the array (C157).
* C109_weight compares the roughness weight with the formula of doc/sphinx/source/theory/thEpa.rst; the minimum length is taken over the first lattice vector and the lattice vectors kept, as in the code. Whether that formula is the one of the paper cited there is not examined.
* the copy constructor of Matrix stores through a null pointer, so +=, -=, *=, /=, prod and diagonalize, which return or begin with such a copy, are undefined for every matrix; serial matrices of more than 2147483647 elements overflow an int, which the velocities of a mesh of 10^6 points with 27 bands exceed (C158). Band structures only construct by default and assign, and are not affected. Unary minus and dot of Matrix act on pointers and do not compile when used; they are not modelled. In M_container energies, velocities and eigenvectors have the same element type.
