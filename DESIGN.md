# Formal model of phono3py in Rocq (Coq 8.16.1)

## 1. Approach

* The model is a set of shallow, total, computable Gallina functions written
  function by function from `/repo` (python and C).  Every definition cites the
  file and lines it mirrors and says what is simplified.
* `int64_t`/python ints are unbounded `Z` (no 64-bit wrap-around is modelled);
  C `/` and `%` are `Z.quot`/`Z.rem` (truncation); python/numpy `%` is
  `Z.modulo` (floor).  `double` is `Q` (exact rationals): rounding is not
  modelled.  Transcendental functions (`exp`, `sinh`, `cos`, `sqrt`) and LAPACK
  appear only as arbitrary function arguments of the model functions.
* Arrays are lists, or total functions `index -> value` with an explicit
  functional update when the C code mutates in place; multi-dimensional indices
  are tuples of bounded `nat`/`Z` (row-major layout of the C array is trusted
  unless stated otherwise).
* Exceptions, error returns and exhausted fuel are values (`option`/`result`).
* OpenMP loops are modelled by `Par.v`: an iteration is a small program of reads
  and writes on a shared memory and a *schedule* is any interleaving of the
  single steps of all iterations.  The "for every schedule" theorems quantify
  over all interleavings.

Layout in `rocq/theories`: for each topic `X`: `XModel.v` (definitions only),
`XProofs.v` (lemmas), `XProps.v` (theorem statements closed by `exact`, with
`Print Assumptions`, and `Example`s showing the hypotheses are met on a concrete
non-trivial case).  Specifications (`is_orbit_min`, `unimodular`, `perm_avg` …)
are written separately from the model's helpers.

Naming: `Cxx_...` theorem for property Cxx; suffix `_partial` if part of the
full statement is missing; suffix `_refuted` if the full statement is false of
the faithful model, with a concrete witness.

## 2. Properties, theorems and files

Status and remarks are in `MANIFEST.json`.  `_refuted` theorems carry a concrete
witness; they state that the full claim is false of the code as modelled.

| id | claim | status | theorems (file) |
|----|-------|--------|-----------|
| C01 | Grid index and grid address are in bijection | proved | `C01_index_address_bijection`, `C01_in_cell_representative_unique` (GridProps.v) |
| C02 | The three grid indexing implementations agree | proved | `C02_indexing_implementations_agree` (GridProps.v) |
| C03 | Half-shifted (double) grid addresses round trip | proved | `C03_double_grid_round_trip` (GridProps.v) |
| C04 | A commensurate rotation permutes the grid | proved | `C04_rotation_acts_on_grid` (GridProps.v) |
| C05 | Irreducible grid map sends each point to the smallest point of its symmetry star | proved | `C05_ir_map_is_least_image`, `C05_ir_map_equivalence`, `C05_ir_map_order_independent` (GridProps.v) |
| C06 | Irreducible weights count stars and sum to the number of grid points | proved | `C06_ir_points_and_weights`, `C06_orbit_stabilizer`, `C06_kstar_order_equals_weight` (GridProps.v) |
| C07 | Reciprocal point group construction | proved | `C07_point_group_contents`, `C07_point_group_distinct_no_time_reversal`, `C07_point_group_failure`, `C07_distinct_for_every_list_refuted` (GridProps.v) |
| C08 | Smith normal form decomposition is exact and unimodular | proved | `C08_decomposition_exact`, `C08_transformations_invertible`, `C08_singular_fails` (SnfProps.v) |
| C09 | Smith normal form diagonal is a divisibility chain | partial | `C09_divisor_chain_refuted`, `C09_second_divides_third_partial` (SnfProps.v) |
| C10 | Rotations are transformed to the grid basis without loss | proved | `C10_transformed_rotations_exact`, `C10_failure_iff_not_integral`, `C10_products_preserved`, `C10_accepted_rotations_are_grid_symmetries`, `C10_large_mesh_refuted` (RotProps.v) |
| C11 | Brillouin-zone relocation keeps every grid point and picks shortest representatives | proved | `C11_dense_layout`, `C11_default_layout`, `C11_doubled_mesh_table`, `C11_index_from_address`, `C11_failure_iff_not_unimodular`, `C11_addresses_distinct` (BzProps.v) |
| C12 | The BZ address buffer allocated by python is large enough | partial | `C12_buffer_suffices_partial`, `C12_buffer_size_refuted` (BzProps.v) |
| C13 | Rotated BZ grid point is the rotated point | partial | `C13_rotation_finds_stored_point`, `C13_dense_rotation_equivalent`, `C13_python_agrees`, `C13_stored_points_closed_under_symmetry`, `C13_default_fallback_refuted` (BzProps.v) |
| C14 | Triplet symmetry reduction is a sound partition | proved | `C14_map_is_smallest_equivalent`, `C14_map_partitions`, `C14_fill_order_irrelevant`, `C14_time_reversal` (TripletProps.v) |
| C15 | Triplets conserve crystal momentum | partial | `C15_triplets_conserve_momentum`, `C15_nosym_triplets`, `C15_default_layout_surface_point_refuted` (TripletProps.v) |
| C16 | BZ triplets use the smallest umklapp vector | partial | `C16_zero_G_found_partial`, `C16_smallest_G_refuted` (TripletProps.v) |
| C17 | Normal and umklapp parts add up to the total | proved | `C17_lowmem_N_and_U`, `C17_detailed_N_and_U` (IseProps.v) |
| C18 | Little group of a grid point | proved | `C18_little_group` (GridProps.v) |
| C19 | Tetrahedron neighbours of a grid point are the translated points | partial | `C19_dense_neighbours`, `C19_default_neighbours`, `C19_vertices_conserve_momentum`, `C19_default_exact_refuted` (IwProps.v) |
| C20 | Vertex sorting in the tetrahedron method is a correct permutation sort | proved | `C20_sort_omegas` (TetraProps.v) |
| C21 | Tetrahedron weights form a partition of unity | proved | `C21_exact_integrated`, `C21_exact_differential`, `C21_partition`, `C21_regions_agree` (TetraProps.v) |
| C22 | Skipping outside-range tetrahedra is sound | proved | `C22_in_tetrahedra_sound`, `C22_tetrahedron_weights`, `C22_smearing_weights` (IwProps.v) |
| C23 | Integrated tetrahedron weight is monotone in energy | partial | `C23_term`, `C23_monotone_partial`, `C23_vertex_refuted`, `C23_close_vertices_refuted` (TetraProps.v) |
| C24 | Relative tetrahedron vertices tile the neighbourhood | proved | `C24_tetrahedra_tile`, `C24_shortest_diagonal` (TileProps.v) |
| C25 | Permutation symmetrization of fc3 is a projection, under any thread schedule | proved | `C25_mean_any_schedule`, `C25_projection` (Fc3Props.v) |
| C26 | Permutation symmetrization of compact fc3 agrees with the full one | proved | `C26_compact_agrees` (Fc3Props.v) |
| C27 | Translational invariance correction makes the force-constant sums vanish | partial | `C27_full`, `C27_compact`, `C27_compact_order_two_refuted` (Fc3Props.v) |
| C28 | Transposition of compact fc3 is a permutation of its entries | partial | `C28_transpose_exact`, `C28_transpose_last`, `C28_involution`, `C28_order_two_refuted` (Fc3Props.v) |
| C29 | Distribution of fc3 by symmetry | proved | `C29_distribution_reconstructs`, `C29_distribution_succeeds` (Fc3DistProps.v) |
| C30 | Cut-off zeroes exactly the elements with a distant pair | proved | `C30_cutoff`, `C30_cutoff_keeps_symmetry`, `C30_cutoff_sum_rule_refuted` (Fc3DistProps.v) |
| C31 | Collision-matrix symmetrization is exact and schedule independent | proved | `C31_symmetrized` (ColExpandProps.v) |
| C32 | Expansion of the reducible collision matrix by symmetry | proved | `C32_expanded_invariant`, `C32_expanded_rows`, `C32_other_rows_kept`, `C32_grid_is_action` (ColExpandProps.v) |
| C33 | Grid-point to triplet lookup used by the collision matrix is consistent | proved | `C33_lookup`, `C33_python_lookup`, `C33_reducible_matrix`, `C33_irreducible_matrix`, `C33_python_matrices` (ColProps.v) |
| C34 | Averaging over degenerate bands | partial | `C34_average`, `C34_collision_blocks`, `C34_reducible_blocks_partial`, `C34_reducible_columns_refuted` (AvgProps.v) |
| C35 | Frequency-point batches cover every point once | proved | `C35_batches_cover_once`, `C35_batches_do_not_matter` (AvgProps.v) |
| C36 | Mass variance is non-negative | proved | `C36_variance_nonneg`, `C36_variance_zero_iff`, `C36_user_data_first` (AvgProps.v) |
| C37 | Forces, displacements and supercells stay in the same order | proved | `C37_supercells_in_order`, `C37_forces_in_order`, `C37_wrong_number_of_forces`, `C37_solver_forces` (DsProps.v) |
| C38 | Displacement array describes the displaced supercells | partial | `C38_displacements_partial`, `C38_displacements_refuted`, `C38_solver_displacements_partial`, `C38_solver_same_atom_refuted` (DsProps.v) |
| C39 | Setting a dataset never leaves stale supercells | partial | `C39_supercells_are_current_partial`, `C39_failed_assignment_refuted` (DsProps.v) |
| C40 | FORCES_FC3 / FORCES_FC2 files round trip | proved | `C40_parse_fc3`, `C40_parse_fc2`, `C40_fc3_round_trip`, `C40_fc2_round_trip` (ForcesProps.v) |
| C41 | phono3py.yaml keeps the displacement dataset | partial | `C41_yaml_round_trip_partial`, `C41_same_supercells`, `C41_included_with_forces_refuted`, `C41_order_refuted`, `C41_no_second_refuted` (YamlProps.v) |
| C42 | ph-ph interaction file round trip | proved | `C42_round_trip`, `C42_lossless`, `C42_plain` (PpFileProps.v) |
| C43 | Result files of different calculations do not collide | partial | `C43_name_partial`, `C43_mesh_partial`, `C43_numbers`, `C43_names_refuted` (NameProps.v) |
| C44 | Phonons at Gamma follow the current NAC direction | partial | `C44_at_gamma_partial`, `C44_elsewhere_partial`, `C44_joint_dos_api`, `C44_isotope_first_run_partial`, `C44_stale_refuted`, `C44_nac_elsewhere_refuted`, `C44_nosym_refuted`, `C44_error_refuted`, `C44_joint_dos_refuted`, `C44_isotope_refuted` (GammaProps.v) |
| C45 | Phonons are computed once and do not depend on request order | partial | `C45_undone_fits`, `C45_phonons`, `C45_order`, `C45_runs`, `C45_nolapack_partial`, `C45_nolapack_other_points_refuted` (PhononProps.v) |
| C46 | Restart from per-grid-point files reproduces the run | partial | `C46_restart`, `C46_complete`, `C46_mixed_parts_refuted`, `C46_read_bands_refuted` (RestartProps.v) |
| C47 | Missing collision files are reported, not crashed on | partial | `C47_missing_partial`, `C47_interrupted_refuted` (ColFileProps.v) |
| C48 | Sparse enumeration of non-zero integration weights loses nothing | proved | `C48_sparse_sum_equals_full_sum`, `C48_lowmem_sparse_sum_equals_full_sum` (IseProps.v) |
| C49 | Interaction strength does not depend on eigenvector phases | proved | `C49_phases`, `C49_three_versions` (R2nProps.v) |
| C50 | Symmetrized interaction is the average over q-point exchanges | partial | `C50_average`, `C50_exchange`, `C50_band_subset_refuted`, `C50_sparse_refuted` (R2nProps.v) |
| C51 | Displacement pairs are identified uniquely | partial | `C51_ids_follow_supercells`, `C51_reported_duplicates`, `C51_duplicates_partial`, `C51_duplicates_complete`, `C51_perfect_supercells_reported`, `C51_perfect_supercell_partial`, `C51_perfect_supercell_refuted` (DispProps.v) |
| C52 | Second-atom reduction covers all pairs | proved | `C52_second_atoms_cover`, `C52_one_operation` (DispProps.v) |
| C53 | Dynamical matrices are Hermitian | proved | `C53_hermitian`, `C53_value`, `C53_gonze` (DynProps.v) |
| C54 | All joint-DOS temperatures are written | partial | `C54_one_temperature_partial`, `C54_only_first_temperature`, `C54_distinct_names`, `C54_all_temperatures_refuted` (NameProps.v) |
| C55 | Frequency-band grouping in imaginary self-energy output | proved | `C55_group_average` (AvgProps.v) |
| C56 | Phonon data from another mesh are rejected | partial | `C56_reject_partial`, `C56_other_mesh_refuted`, `C56_gamma_agrees_refuted` (PhononProps.v) |
| C57 | Python and C rotate grid points alike | partial | `C57_python_rotation_agrees_partial`, `C57_python_rotation_with_shift_refuted` (GridProps.v) |
| C58 | symmetrize_fc3r gives symmetric and translation-invariant force constants together | partial | `C58_symmetrize_full`, `C58_symmetrize_compact`, `C58_symmetrize_compact_order_two_refuted` (Fc3Props.v) |
| C59 | Symmetry-enforcing methods act correctly on compact fc3 | partial | `C59_translational_invariance_erases`, `C59_api_on_compact_refuted` (Fc3Props.v) |
| C60 | Force constants of the displaced atom are recovered exactly from linear data | proved | `C60_first_row_exact` (Fc3DistProps.v) |
| C61 | Python and C give the same linewidths | partial | `C61_python_and_C_agree_above_0K`, `C61_python_and_C_agree_at_0K_refuted` (IseProps.v) |
| C62 | Scattering event classes add up | proved | `C62_event_classes_add_up` (IseProps.v) |
| C63 | Expansion of mode quantities over the stars | proved | `C63_expanded_scalars`, `C63_expanded_vectors` (ColExpandProps.v) |
| C64 | Star weights in the collision matrix | proved | `C64_weights` (ColExpandProps.v) |
| C65 | Detailed linewidths are stored per sigma and temperature | partial | `C65_frequency_points`, `C65_at_bands_fails_refuted`, `C65_at_bands_wrong_refuted` (AvgProps.v) |
| C66 | NAC direction concerns only the Gamma point | partial | `C66_gonze`, `C66_gonze_gamma`, `C66_wang_gamma`, `C66_wang_refuted` (DynProps.v) |
| C67 | Collision data survive writing and reading | partial | `C67_read_partial`, `C67_grid_point_files`, `C67_full_file_refuted`, `C67_band_files_refuted`, `C67_selected_refuted` (ColFileProps.v) |
| C68 | Collision data read from files are used | partial | `C68_computed_again`, `C68_read_refuted` (ColFileProps.v) |
| C69 | Isotope linewidths in collision files belong to the grid point of the file | partial | `C69_all_grid_points_partial`, `C69_given_grid_points_refuted` (ColFileProps.v) |
| C70 | Linewidths for other temperatures are rejected | partial | `C70_number_partial`, `C70_other_temperatures_refuted` (RestartProps.v) |
| C71 | Length of the NAC direction does not matter | proved | `C71_wang`, `C71_gonze` (DynProps.v) |
| C72 | Uniform translations have zero frequency at Gamma | proved | `C72_acoustic` (DynProps.v) |
| C73 | Dynamical matrices at -q are conjugate | proved | `C73_wang`, `C73_gonze` (DynProps.v) |
| C74 | Equivalent q-points have equivalent dynamical matrices | partial | `C74_periodic`, `C74_wang_refuted` (DynProps.v) |
| C75 | Grid-point integration weights count states | proved | `C75_ends`, `C75_layout`, `C75_number_of_states` (GpwProps.v) |
| C76 | Accumulated spectra end at the total | proved | `C76_spectrum`, `C76_ends`, `C76_total`, `C76_bounds`, `C76_mean_free_path`, `C76_mode_mean_free_path` (KaccumProps.v) |
| C77 | The smearing width asked for is used | partial | `C77_default_width`, `C77_given_width_refuted` (KaccumProps.v) |
| C78 | Grid values of the documented shape are enough | partial | `C78_table_covers`, `C78_default_table_refuted` (KaccumProps.v) |
| C79 | Symmetric q-points have equal integration weights | partial | `C79_inversion`, `C79_rotation_refuted` (KaccumProps.v) |
| C80 | fc3 in reciprocal space is the lattice sum over both other atoms | proved | `C80_legacy`, `C80_average`, `C80_compact` (R2rProps.v) |
| C81 | Interaction strengths are periodic in reciprocal space | proved | `C81_shift`, `C81_strength`, `C81_addresses`, `C81_conserved` (R2rProps.v) |
| C82 | The table of closing triplets does not change the average over origins | proved | `C82_asymmetric_refuted` (R2rEx.v); `C82_shortcut`, `C82_assert` (R2rProps2.v) |
| C83 | Interaction strength does not depend on the order of the three phonons | partial | `C83_legacy_refuted` (R2rEx.v); `C83_exchange`, `C83_shortcut`, `C83_legacy_partial` (R2rProps2.v) |
| C84 | The Python and C transforms to reciprocal space agree | partial | `C84_refuted` (R2rEx.v); `C84_partial` (R2rProps2.v) |
| C85 | Acoustic modes at Gamma do not interact | partial | `C85_refuted` (R2rEx.v); `C85_partial` (R2rProps2.v) |
| C86 | Time reversal: opposite triplets have complex conjugate fc3 and equal strengths | proved | `C86_reverse`, `C86_strength` (R2rProps.v) |
| C87 | Triplets related by crystal symmetry have equal interaction strengths | proved | `C87_legacy`, `C87_average`, `C87_shortcut`, `C87_strength` (R2rSym.v) |
| C88 | Frequencies are equal at q-points related by crystal symmetry | proved | `C88_matrix`, `C88_frequencies`, `C88_gonze` (DynSym.v) |
| C89 | Isotope scattering rates follow the golden rule, in C and in Python | partial | `C89_golden_rule`, `C89_languages_agree_partial`, `C89_languages_agree_refuted` (IsoProps.v) |
| C90 | Isotope linewidths are physical quantities | proved | `C90_sign`, `C90_equivalent_points`, `C90_equivalent_points_tetrahedron`, `C90_eigenvector_choice` (IsoSym.v) |
| C91 | Computing the conductivity from irreducible grid points does not change it | proved |  |
| C92 | The conductivity tensor is physical | partial | `C92_more_scattering_refuted`, `C92_point_group` (KapTensor.v); `C92_ignored` (TightProps.v) |
| C93 | The direct solution reports the same relaxation time approximation as the RTA calculation | partial | `C93_agrees_partial`, `C93_agrees_refuted` (KapLbte.v) |
| C94 | The relaxation time approximation from the full collision matrix uses its diagonal as linewidths | partial | `C94_full_matrix_partial`, `C94_full_matrix_refuted` (KapLbte.v) |
| C95 | Niggli reduction gives a reduced basis of the same lattice | proved | `C95_same_lattice`, `C95_reduced` (NigProps.v); `C95_not_longer` (NigShort.v); `C95_successive_minima` (VorProps.v) |
| C96 | BZ grid addresses lie in the first Brillouin zone of the given lattice | partial | `C96_first_brillouin_zone`, `C96_success_iff`, `C96_every_lattice_refuted` (VorProps.v) |
| C97 | Frequency shifts are the regularized shifts of the two-phonon spectrum | proved | `C97_exchange`, `C97_below_continuum`, `C97_bounded`, `C97_small_epsilon` (RseProps.v) |
| C98 | Linewidths, shifts and spectral functions belong together | proved | `C98_kramers_kronig`, `C98_refused`, `C98_spectral`, `C98_spectral_bounds` (KkProps.v) |
| C99 | Files of spectral functions and shifts tell which bands they hold | partial | `C99_group_mean`, `C99_spectral_bands_partial`, `C99_spectral_bands_refuted`, `C99_deltas_name_refuted` (KkProps.v) |
| C100 | Mode Grueneisen parameters are the strain derivatives of the squared frequencies of the relaxed crystal | partial | `C100_meaning`, `C100_origin`, `C100_opposite`, `C100_gauge`, `C100_relaxed`, `C100_monatomic`, `C100_scale`, `C100_rows`, `C100_compact_refuted`, `C100_supercells_refuted` (GruProps.v); `C100_positions`, `C100_scalar` (TightProps.v) |
| C101 | Joint density of states: C and Python paths give the same two spectra, and they count pairs of modes | proved | `C101_python`, `C101_temperature`, `C101_zero`, `C101_python_and_C_agree`, `C101_none`, `C101_total` (JdosProps.v) |
| C102 | Wigner conductivity: every pair of populated modes is counted once, with the Peierls limit, the crystal's symmetry and independence of the choice of degenerate eigenvectors | partial | `C102_exchange`, `C102_symmetric`, `C102_semidefinite`, `C102_nonneg`, `C102_point_group`, `C102_gauge`, `C102_velocities_refuted` (WigProps.v) |
| C103 | Kubo conductivity: symmetric heat capacity matrix, all pairs of populated modes, velocity matrices kept by their site symmetry | partial | `C103_cold_refuted`, `C103_warm`, `C103_wigner`, `C103_site_diagonal`, `C103_site_refuted` (KuboProps.v); `C103_hermitian`, `C103_products` (TightProps.v) |
| C104 | load() takes force constants and datasets from the documented places, checked and in the right units | partial | `C104_structure`, `C104_dataset`, `C104_phonon_dataset`, `C104_force_constants`, `C104_sequence_refuted`, `C104_type1_refuted`, `C104_fc2_file_refuted`, `C104_named_forces_refuted`, `C104_yaml_forces_refuted`, `C104_not_found_refuted`, `C104_nothing_refuted`, `C104_short_file_refuted` (LoadProps.v); `C104_cutoff` (TightProps.v) |
| C105 | Files of force constants hold what the run used and can be used by the next run | partial | `C105_store`, `C105_again`, `C105_read`, `C105_write`, `C105_read_back`, `C105_no_fc3_refuted`, `C105_cutoff_refuted`, `C105_own_file_refuted` (StoreProps.v); `C105_fc3_made`, `C105_lbte_phonon_refuted` (TightProps.v) |
| C106 | Calculators and options are assigned to the right order of force constants | partial | `C106_one`, `C106_two`, `C106_params`, `C106_cutoff`, `C106_cutoff_alone`, `C106_orders`, `C106_dictionary_refuted`, `C106_last_refuted`, `C106_unknown_refuted` (CalcProps.v); `C106_dictionary`, `C106_alm` (TightProps.v) |
| C107 | A setting comes from the command line, else from the configuration file, else from its default | partial | `C107_precedence`, `C107_N_U_tag_refuted`, `C107_N_U_option`, `C107_conductivity_type`, `C107_pp_unit_conversion_refuted`, `C107_r0_average_tag_refuted`, `C107_v2_option` (OptProps.v) |
| C108 | A run of the command performs the calculation it was asked for, or refuses | partial | `C108_only_requested`, `C108_at_most_one`, `C108_single_request`, `C108_refused`, `C108_spf_refuted`, `C108_write_phonon_refuted`, `C108_br_lbte_refuted`, `C108_gruneisen_jdos_refuted`, `C108_displacements`, `C108_isotope_refuted`, `C108_grid_points_refuted` (CuiProps.v) |
| C109 | Default temperatures, sigmas and sampling of a run | partial | `C109_temperatures`, `C109_tmax_included`, `C109_tmax_refuted`, `C109_spectra_refuted`, `C109_ts`, `C109_sigmas`, `C109_sampling`, `C109_isotope_cutoff_refuted` (CuiProps.v) |
| C110 | Phonons written by one run are the phonons used by a later run | partial | `C110_solved`, `C110_read`, `C110_round_trip`, `C110_read_write_refuted`, `C110_forced_zero_refuted` (CuiProps.v) |
| C111 | Direct solution of the LBTE: full and symmetry-reduced collision matrices, and all solvers, give the same conductivity | partial | `C111_solvers_full`, `C111_solvers_reduced`, `C111_solves`, `C111_builtin_inverse`, `C111_f_vectors`, `C111_modes`, `C111_kappa`, `C111_positive`, `C111_null_space`, `C111_null_space_refuted`, `C111_positive_refuted` (DirProps.v) |
| C112 | Collecting forces (--cf3, --cf2, --cfz, --sp) attaches to every displacement the forces of its own supercell | partial | `C112_params`, `C112_forces_fc3`, `C112_all_or_nothing`, `C112_refuses`, `C112_fc2`, `C112_force_sets_from_fc3`, `C112_fc2_calculator_refuted`, `C112_wrong_number_with_zero_refuted`, `C112_no_energies_refuted`, `C112_fc2_number_refuted`, `C112_old_forces_refuted`, `C112_excluded_pairs_refuted` (CfsProps.v); `C112_params_rest`, `C112_type2`, `C112_force_sets_from_fc2` (CfsTight.v) |
| C113 | SSCHA matrices are those of the harmonic Gaussian and the averages return the force constants | partial | `C113_inverse`, `C113_exponent`, `C113_eigenvectors`, `C113_mesh`, `C113_least_squares`, `C113_harmonic`, `C113_cubic`, `C113_no_cubic`, `C113_prefactor_refuted`, `C113_drift_refuted`, `C113_error_state`, `C113_error_state_refuted` (SschaProps.v) |
| C114 | Velocity operators are Hermitian derivatives of the square root of the dynamical matrix | partial | `C114_square`, `C114_unique`, `C114_derivative`, `C114_hermitian`, `C114_direction_unused`, `C114_frequencies`, `C114_time_reversal`, `C114_gamma`, `C114_cutoff_refuted`, `C114_displacement`, `C114_sign` (VelProps.v) |
| C115 | Group velocity matrices are Hermitian, vanish below the cutoff and treat degenerate bands consistently | proved | `C115_hermitian`, `C115_cutoff`, `C115_degenerate`, `C115_trace`, `C115_orthonormal`, `C115_diagonal` (GvmProps.v) |
| C116 | Wigner conductivity of the direct solution agrees with the Wigner RTA calculation | partial | `C116_imaginary`, `C116_units`, `C116_threshold_refuted`, `C116_degenerate_refuted`, `C116_attributes_refuted` (WlbProps.v) |
| C117 | Collective phonons, mean free paths and f-vectors describe the direct solution | partial | `C117_collective_total`, `C117_collective_Y`, `C117_collective_positive`, `C117_mean_free_path`, `C117_mean_free_path_rta`, `C117_f_vectors`, `C117_f_vectors_refuted`, `C117_collective_modes_refuted`, `C117_mean_free_path_sign_refuted`, `C117_mean_free_path_small_refuted` (ChaProps.v) |
| C118 | Phonons obtained by rotating eigenvectors are the phonons at every grid point | proved | `C118_operations_found`, `C118_points_kept`, `C118_wang`, `C118_gonze` (EvrProps.v) |
| C119 | The sampling grid is the one asked for and has the symmetry of the crystal | partial | `C119_three_numbers`, `C119_matrix`, `C119_length`, `C119_plain_length`, `C119_symmetry`, `C119_grg_symmetry`, `C119_ignored_refuted`, `C119_negative_refuted`, `C119_transformation_matrix_refuted` (GmProps.v) |
| C120 | Force constants with a cutoff pair distance keep exactly what was computed | partial | `C120_pairs`, `C120_symmetric`, `C120_zero`, `C120_mean`, `C120_exact`, `C120_distances`, `C120_sum_rule_refuted` (FcoProps.v) |
| C121 | phono3py-kaccum: cumulative properties end at the mesh average | partial | `C121_scalar`, `C121_dos`, `C121_tensor`, `C121_gv`, `C121_conductivity`, `C121_temperature`, `C121_absent_temperature_refuted`, `C121_three_scalars_refuted`, `C121_no_gridsym_refuted`, `C121_gv_mfp_refuted` (KscProps.v) |
| C122 | Python and C integration weights of triplets agree | partial | `C122_tetrahedra`, `C122_smearing`, `C122_cutoff`, `C122_negative_frequencies_refuted`, `C122_cutoff_refuted` (TiwProps.v) |
| C123 | Several smearing widths in one run | partial | `C123_alone`, `C123_value`, `C123_averaged`, `C123_pp_file`, `C123_lowmem`, `C123_zero_width_refuted` (SigProps.v) |
| C124 | Joint density of states: the frequency axis and the object | partial | `C124_points`, `C124_default`, `C124_step`, `C124_axis_end`, `C124_nothing_beyond`, `C124_spectra`, `C124_no_grid_points`, `C124_late_refuted`, `C124_mesh_refuted`, `C124_initialize_refuted`, `C124_step_refuted` (JdaProps.v) |
| C125 | Collision matrix: the Python and C versions of expansion and symmetrization agree | proved | `C125_expansion`, `C125_symmetrization` (ColpyProps.v) |
| C126 | Third-order force constants from the forces of a dataset are those of the crystal | proved | `C126_exact`, `C126_succeeds` (FdfProps.v) |
| C127 | The drift shown for third-order force constants is the largest drift | partial | `C127_full`, `C127_unchanged`, `C127_compact`, `C127_compact_first`, `C127_same`, `C127_label_refuted`, `C127_order_two_refuted` (DrfProps.v) |
| C128 | Choice of the solver of the direct solution: any request gives the same solution or a clear refusal, and the files written have the eigenvectors | partial | `C128_choice`, `C128_runs`, `C128_same_solution`, `C128_numpy_inverse`, `C128_files`, `C128_file_6`, `C128_other_temperatures`, `C128_eigenvalues_7`, `C128_last`, `C128_not_compiled_refuted`, `C128_default_refuted`, `C128_unitary_refuted`, `C128_zero_temperature_refuted`, `C128_f_vector_refuted` (SolProps.v) |
| C129 | Machine learning potentials: forces and energies of the displaced supercells, and force constants from them | partial | `C129_evaluated`, `C129_evaluated_all`, `C129_phonon_evaluated`, `C129_accepted`, `C129_message_refuted`, `C129_found`, `C129_trained`, `C129_no_potential`, `C129_command`, `C129_dim_fc2_refuted`, `C129_load_function_refuted`, `C129_excluded_refuted`, `C129_data_refuted`, `C129_files_refuted`, `C129_filename_refuted`, `C129_save_refuted`, `C129_energies_refuted`, `C129_stored`, `C129_second_file`, `C129_phonon_trained` (MlpProps.v) |
| C130 | Displacements, forces and energies for fc2 belong to the displaced phonon supercells | partial | `C130_displacements`, `C130_displacements_all`, `C130_forces`, `C130_forces_all`, `C130_number_refuted`, `C130_current_partial`, `C130_failed_assignment_refuted`, `C130_assigned`, `C130_energies_all` (MlpProps.v) |
| C131 | Grid points, weights and numbers of triplets shown for planning distributed runs are those of the runs | partial | `C131_same_points`, `C131_representatives`, `C131_given_points`, `C131_distributed`, `C131_noks_warning`, `C131_triplets`, `C131_shown`, `C131_nomeshsym`, `C131_addresses_refuted`, `C131_phonon_memory`, `C131_memory`, `C131_noks_refuted`, `C131_nomeshsym_refuted`, `C131_direction_refuted`, `C131_reducible_memory`, `C131_memory_refuted` (WgpProps.v) |
| C132 | Displacements are generated with the options given, and a recorded seed reproduces them | partial | `C132_fc3_random`, `C132_fc3_systematic`, `C132_fc2_beside`, `C132_fc2_random`, `C132_fc2_systematic`, `C132_fc2_only`, `C132_fc2_auto_partial`, `C132_reproducible`, `C132_seed_recorded`, `C132_command_fc3`, `C132_command_fc2`, `C132_cells`, `C132_cells_fc2`, `C132_fc2_reproducible`, `C132_files`, `C132_rd_fc2_files_refuted`, `C132_yaml_matrix_refuted`, `C132_fc2_auto_refuted`, `C132_seed_refuted` (GenProps.v) |
| C133 | Phonons and strengths of a session belong to the inputs that are set | partial | `C133_strengths`, `C133_self_energies`, `C133_phonons`, `C133_nac`, `C133_fresh`, `C133_needs_init`, `C133_init_raises`, `C133_data`, `C133_data_gamma_refuted`, `C133_data_before_refuted`, `C133_late_refuted`, `C133_masses_refuted`, `C133_gamma_refuted`, `C133_direction_refuted`, `C133_unsolved_refuted` (SesProps.v) |
| C134 | Force constants that are produced belong to the datasets and options of the moment | partial | `C134_fc3`, `C134_exception`, `C134_fc2_beside`, `C134_fc2_stays`, `C134_fc2`, `C134_no_forces`, `C134_both`, `C134_session`, `C134_setters`, `C134_changes`, `C134_new_data_refuted`, `C134_wrong_cell_refuted` (FcsProps.v) |
| C135 | The real part of self energies is calculated and written with the widths asked for | partial | `C135_setter`, `C135_setter_refuted`, `C135_values`, `C135_widths_refuted`, `C135_files`, `C135_none_refuted`, `C135_at_bands_refuted`, `C135_temperatures_refuted` (EpsProps.v) |
| C136 | Phonons that are written are read back by name | partial | `C136_names`, `C136_mesh_refuted`, `C136_round_trip`, `C136_missing`, `C136_other`, `C136_addresses_refuted`, `C136_both_refuted`, `C136_copy_refuted` (PhfProps.v) |
| C137 | Rates of a Phono3pyIsotope object belong to its matrix, widths, points and bands | partial | `C137_gamma`, `C137_table`, `C137_table_refuted`, `C137_new_matrix_refuted`, `C137_no_matrix`, `C137_stay`, `C137_set_sigma_refuted` (IssProps.v) |

## 3. What is modelled

The header of each model file and the comment at each definition give the lines of
`/repo` and the simplifications.  Summary:

| model | code |
|-------|------|
| `AvgModel.v` | Averages over degenerate bands, batches of frequency points, mass variances and the bookkeeping of self-energy output. Files cited: phono3py/conductivity/direct_solution.py, phono3py/other/isotope.py, phono3py/phonon3/imag_self_energy.py |
| `BzModel.v` | BZ grid: c/bzgrid.c, c/recgrid.c:125-222, grid.py:1078-1174. Doubles are exact rationals; arrays are total functions, so a write beyond the allocated size is visible in [size] instead of corrupting memory. Files cited: c/bzgrid.c, c/recgrid.c, grid.py, phono3py/phonon/grid.py |
| `CalcModel.v` | Strings that choose the force constants calculators and their options: interface/fc_calculator.py and cui/create_force_constants.py. Files cited: create_force_constants.py, fc_calculator.py, load.py |
| `CfsModel.v` | Collecting forces: FORCES_FC3, FORCES_FC2 and phono3py_params.yaml out of calculator output files. Files cited: create_force_sets.py, file_IO.py, wien2k.py |
| `ChaModel.v` | Collective phonons (solve_collective_phonon), mean free paths and f-vectors of the direct solution. Source: phono3py/conductivity/direct_solution.py. Numbers, arrays and the first steps of the solution are those of DirModel. Files cited: direct_solution.py, phono3py/conductivity/direct_solution.py, utils.py |
| `ColFileModel.v` | Files of the collision matrix: conductivity/utils.py (write_collision 409-487, set_collision_from_file 992-1127, _allocate_collision 1130-1166, _collect_collision_gp 1169-1208, _collect_collision_band 1211-1252), file_IO.py (write_collision_to_hdf5, read_collision_from_hdf5 1110-1192), conductivity/direct_solution.py (_run_at_grid_point 354-383, _set_collision_matrix_at_sigmas 451-537, get_thermal_conductivity_LBTE 1770-1826), conductivity/base.py 516-518, 545-548.  Files cited: base.py, direct_solution.py, file_IO.py, utils.py |
| `ColModel.v` | Collision matrix: c/collision_matrix.c, c/phono3py.c 486-587, phono3py/phonon3/collision_matrix.py and parts of phono3py/conductivity/direct_solution.py. Doubles are rationals; [ish f T] stands for funcs_inv_sinh_occupation (c/funcs.c). Files cited: c/collision_matrix.c, c/funcs.c, c/phono3py.c, collision_matrix.py, direct_solution.py, phono3py/conductivity/direct_solution.py, phono3py/phonon3/collision_matrix.py |
| `ColpyModel.v` | The Python versions of the steps that complete a collision matrix, phono3py/conductivity/direct_solution.py 605-634 (_expand_reducible_collisions), 696-728 (_symmetrize_collision_matrix when the C extension cannot be imported) and 1199-1234 (_py_symmetrize_collision_matrix and _py_symmetrize_collision_matrix_no_kappa_stars, which nothing calls). The C versions are in ColModel.v. Doubles are rationals. One sigma and one temperature at a time: every statement of these functions acts on all of them alike. Arrays are functions of their indices. Files cited: phono3py/conductivity/direct_solution.py |
| `CuiModel.v` | The phono3py command: run mode, order of the stages and their exits, the default values of a run, and the stage that solves, writes and reads phonons. Sources: phono3py/cui/phono3py_script.py, phono3py/cui/create_supercells.py, phono3py/cui/create_force_constants.py, phono3py/phonon3/interaction.py. Files cited: api_phono3py.py, create_force_constants.py, create_supercells.py, interaction.py, phono3py/cui/create_force_constants.py, phono3py/cui/create_supercells.py, phono3py/cui/phono3py_script.py, phono3py/other/isotope.py, phono3py/phonon/grid.py, phono3py/phonon/solver.py, phono3py/phonon3/interaction.py, phono3py_script.py, spectral_function.py |
| `DirModel.v` | Direct solution of the linearized Boltzmann equation: from the parts of the collision matrix to the conductivity, with the full collision matrix and with the symmetry-reduced one. Sources: phono3py/conductivity/direct_solution.py, c/lapack_wrapper.c. The numbers are those of any field in which a sum of squares vanishes only if its terms do (e.g. the rational or the real numbers): the weights of the symmetry-reduced matrix are square roots. Arrays are functions of their indices. Files cited: c/lapack_wrapper.c, direct_solution.py, phono3py/conductivity/direct_solution.py |
| `DispModel.v` | Generation of displacement pairs. Files cited: displacement_fc3.py |
| `DrfModel.v` | The drift of third-order force constants shown to the user: phono3py/phonon3/fc3.py show_drift_fc3 576-651. The result is the three numbers and Cartesian indices that are printed and, as the compact branch works in place, the array afterwards. The C routine transpose_compact_fc3 (609-611, 617-619) is in Fc3Model.v. Doubles are rationals; the digits printed are left out. Files cited: phono3py/phonon3/fc3.py |
| `DsModel.v` | Displacement datasets of the Phono3py class: displaced supercells, displacements, forces and the caches kept by the setters. Files cited: api_phono3py.py, dataset.py, phono3py/phonon3/dataset.py |
| `DynModel.v` | Dynamical matrices: c/dynmat.c 188-424, 471-711 and c/phonon.c 305-470.  Files cited: c/dynmat.c, c/phonon.c, dynmat.c, phonon.c |
| `EpsModel.v` | Smearing widths, temperatures and text files of the self energies: the setter of sigmas, the widths of run_real_self_energy, its results and files, and the temperatures of run_imag_self_energy. Source: phono3py/api_phono3py.py, phono3py/phonon3/real_self_energy.py, phono3py/phonon3/imag_self_energy.py, phono3py/file_IO.py. Values of the self energies are an argument; doubles are rationals. Names of files are the tuple of what they are made from (their text is in RseModel.v and other models), the mesh and the name given by the user are the same for all files of a call. Files cited: api_phono3py.py, file_IO.py, imag_self_energy.py, phono3py/api_phono3py.py, phono3py/file_IO.py, phono3py/phonon3/imag_self_energy.py, phono3py/phonon3/real_self_energy.py, real_self_energy.py |
| `EvrModel.v` | Phonons on all grid points of the Brillouin zone made from those on the irreducible ones by rotating eigenvectors: phono3py/phonon3/interaction.py 711-721, 754-896 Files cited: phono3py/phonon/grid.py, phono3py/phonon/solver.py, phono3py/phonon3/interaction.py |
| `Fc3Model.v` | Third-order force constants: c/fc3.c and phono3py/phonon3/fc3.py. Doubles are rationals. Files cited: _phono3py.cpp, api_phono3py.py, c/fc3.c, fc3.py, phono3py/phonon3/fc3.py |
| `FcoModel.v` | Third-order force constants of a displacement dataset with a cutoff pair distance: phono3py/phonon3/fc3.py (_copy_permutation_symmetry_fc3_elem 293-300, _cutoff_fc3_for_cutoff_pairs 531-545, _set_permutation_symmetry_fc3_elem_with_cutoff 654-675, _get_fc3_done 781-844, _get_atom_by_symmetry 847-857). Files cited: fc3.py, phono3py/phonon3/fc3.py |
| `FcsModel.v` | Force constants of a Phono3py object through a sequence of calls: datasets that are set, produce_fc3, produce_fc2, cutoff and symmetrization. Source: phono3py/api_phono3py.py. The solvers, the symmetrization of arrays (modelled in Fc3Model.v) and the cutoff are arguments here. Arrays are values: that an array given by the user is changed in place is left out. Files cited: dataset.py, phono3py/api_phono3py.py |
| `FdfModel.v` | Third-order force constants from the forces of a displacement dataset: phono3py/phonon3/fc3.py get_fc3 63-170 (without cutoff_distance, which is in FcoModel.v), _get_delta_fc2 385-392, _get_constrained_fc2 395-442, _solve_fc3 445-528, _get_fc3_least_atoms 678-760. The C routine of 521 and the expansion of 104-149 are in Fc3Dist.v. Doubles are rationals. Functions of phonopy are arguments: [solve] solve_force_constants (the row of one atom), [distribute] distribute_force_constants with the permutations of 436-440, [site] get_site_symmetry, [rmap] get_positions_sent_by_rot_inv around the first atom (491-500), [pinv] numpy.linalg.pinv or lapacke_pinv; so are get_reduced_site_symmetry ([reduce], 726-732), get_bond_symmetry ([bond], 422-424) and the second-order force constants of get_fc2 (87-93). Files cited: phono3py/phonon3/fc3.py |
| `ForcesModel.v` | FORCES_FC2 and FORCES_FC3 files. Files cited: file_IO.py |
| `GammaModel.v` | Phonons at the Gamma point and the NAC direction: interaction.py, joint_dos.py, api_jointdos.py, isotope.py. Only the entry of Gamma is tracked. [solver d] is what the phonon solver gives at Gamma with direction d (None: without NAC). Directions are up to a positive factor (set_grid_point normalizes the direction in place). Files cited: api_jointdos.py, api_phono3py.py, interaction.py, isotope.py, joint_dos.py |
| `GenModel.v` | Generation of displacements (Phono3py.generate_displacements, generate_fc2_displacements) and of the supercell files by the command (-d, --rd, --rd-fc2). Sources: phono3py/api_phono3py.py, phono3py/cui/create_supercells.py. The functions of phonopy (random displacements, least displacements, number of supercells needed by symfc, default distance of an interface) and the systematic displacements of phonon3/displacement_fc3.py are arguments here (the latter are modelled in DispModel.v). Logs are left out. Files cited: api_phono3py.py, create_supercells.py, displacement_fc3.py, phono3py/api_phono3py.py, phono3py/cui/create_supercells.py |
| `GmModel.v` | Which sampling grid belongs to a given [mesh]: class GridMatrix, phono3py/phonon/grid.py 577-855, 1226-1242, as used at 428-445. Doubles are rationals; warnings are left out. Files cited: phono3py/phonon/grid.py |
| `GridModel.v` | Model of the generalized-regular-grid functions: c/grgrid.c, the integer part of c/lagrid.c, c/recgrid.c and the python callers in phono3py/phonon/grid.py. int64_t is modelled by unbounded Z (no overflow). Out-parameters are returned. Files cited: c/grgrid.c, c/lagrid.c, c/recgrid.c, c/triplet_grid.c, phono3py/conductivity/base.py, phono3py/phonon/grid.py |
| `GruModel.v` | Mode Grueneisen parameters: phono3py/phonon3/gruneisen.py (Gruneisen) and cui/phono3py_script.py 692-737.  Files cited: phono3py/phonon3/gruneisen.py, phono3py_script.py |
| `GvmModel.v` | Group velocity matrices. Source: phono3py/phonon/group_velocity_matrix.py, _calculate_group_velocity_matrix_at_q and _rot_eigsets. (The symmetrization 161-186 is in WigModel.v.) Matrices as in VelModel.v. The derivatives of the dynamical matrix (phonopy's _get_dD), the frequencies and the degenerate sets (phonopy's degenerate_sets) are arguments. Files cited: phono3py/phonon/group_velocity_matrix.py |
| `IseModel.v` | Imaginary part of self-energy: c/imag_self_energy_with_g.c, c/pp_collision.c 255-295, c/triplet.c 117-133 and the parts of phono3py/phonon3/imag_self_energy.py that combine them. [bose f t] stands for funcs_bose_einstein (c/funcs.c 43-45). Files cited: c/funcs.c, c/imag_self_energy_with_g.c, c/pp_collision.c, c/triplet.c, imag_self_energy.py, phono3py/phonon3/imag_self_energy.py |
| `IsoModel.v` | Scattering by mass disorder: c/isotope.c and phono3py/other/isotope.py. Doubles are rationals. Phonons are given on the whole BZ grid, as set by set_phonons or the phonon solver: [freq] (grid point, band) and [eig] (grid point, component, band) are flattened arrays. [gauss x sigma] is funcs_gaussian (c/funcs.c 48-50) and gaussian (phono3py/phonon/func.py 41-43), [pi] the constant of both languages. Files cited: c/funcs.c, c/isotope.c, isotope.py, phono3py/other/isotope.py, phono3py/phonon/func.py |
| `IssModel.v` | A Phono3pyIsotope object through a sequence of calls. Source: phono3py/api_isotope.py, phono3py/other/isotope.py. Rates and frequencies that belong to a dynamical matrix are arguments (IsoModel.v has the rates); a grid point is a number below the number of grid points, other numbers are not modelled. Only lang="C". Printing is the list of rows. Files cited: api_isotope.py, isotope.py, phono3py/api_isotope.py, phono3py/other/isotope.py, solver.py |
| `IwModel.v` | Integration weights of triplets: c/triplet_iw.c, c/triplet.c:65-115, 135-160, c/phono3py.c:441-484, 650-705. [exp] is an argument (inside [gauss]); the loops write to disjoint elements and are given as their lists of writes. Files cited: c/phono3py.c, c/triplet.c, c/triplet_iw.c |
| `JdaModel.v` | The class Phono3pyJointDos (phono3py/api_jointdos.py 50-298) and the frequency axis of spectra (phonon3/imag_self_energy.py 918-967). Doubles are rationals. The spectra themselves are a function [dos] of the grid, the direction for the non-analytical term, the grid point, the width, the temperature and the frequency (joint_dos.py is in JdosModel.v and GammaModel.v); names of files are in NameModel.v: here a file is known by grid point and index of the width, and only the first temperature is written (write_joint_dos returns after it, C54). Files cited: imag_self_energy.py, joint_dos.py, phono3py/api_jointdos.py |
| `JdosModel.v` | Joint density of states: phono3py/phonon3/joint_dos.py 339-418 (run_jdos and its helpers). The integration weights self._g (shape (2 or 3, triplets, frequency points, band, band)) and self._g_zero are arguments; the C routine called for a given temperature is imag_self_energy_with_g of [IseModel] with one band0 and an array of ones. [bose f T] stands for both funcs_bose_einstein (C) and bose_einstein (Python). Files cited: phono3py/phonon3/joint_dos.py |
| `KaccumModel.v` | Spectra of mode properties: phono3py/other/kaccum.py and phono3py/other/tetrahedron_method.py:91-178. Doubles are rationals; arrays are functions of their indices (lists where the length is tested). Files cited: c/tetrahedron_method.c, kaccum.py, kaccum_script.py, phono3py/other/kaccum.py, phono3py/other/tetrahedron_method.py, phono3py/phonon/grid.py, tetrahedron_method.py |
| `KapModel.v` | Lattice thermal conductivity in the relaxation time approximation: phono3py/conductivity/base.py (ConductivityMixIn, ConductivityBase), conductivity/rta.py (ConductivityRTA) and conductivity/direct_solution.py (kappa_RTA). One smearing width and one temperature. Grid points are named by their index on the regular grid, on which phonons and velocities depend (BZ-grid indices, where they matter, are in [lbte_mode_red]); all bands are computed. Doubles are rationals; phonopy's mode_cv, np.sqrt, np.sinh and phonopy's group velocities are function arguments. Overflow and underflow (which np.seterr(all="raise") turns into an exception) do not occur. Files cited: base.py, direct_solution.py, phono3py/conductivity/base.py, rta.py |
| `KscModel.v` | The command phono3py-kaccum: phono3py/cui/kaccum_script.py. [g] and [rots] are the BZGrid of the primitive cell (dense index map, 261-266) with its reciprocal rotations.  Files cited: c/tetrahedron_method.c, kaccum.py, phono3py/cui/kaccum_script.py |
| `LoadModel.v` | Where the force constants and the displacement datasets come from: phono3py/cui/load.py (the function load), cui/create_force_constants.py and _store_force_constants of cui/phono3py_script.py. Force constants are elements of a type [F] with the length of their second axis and whether they are compact; the solvers are functions of the dataset. phonopy's part is given by arguments: physical units of the calculators, check_force_constants_indices, numbers of atoms and maps of the cells, reading of type-2 files. NAC parameters, MLPs and logging are left out. Files cited: api_phono3py.py, create_force_constants.py, dataset.py, file_IO.py, load.py, phono3py/cui/load.py, phono3py_script.py |
| `MlpModel.v` | Machine learning potentials in the Phono3py class and in the commands, and the dataset for fc2. Sources: phono3py/api_phono3py.py, phono3py/cui/create_force_constants.py, phono3py/cui/phono3py_script.py, phono3py/cui/load.py. A potential is a function of the positions of a supercell giving its energy and forces; training (PhonopyMLP.develop), saving and loading are phonopy's and are function arguments or files. PhonopyMLP.evaluate evaluates supercell by supercell; an entry None in its list is an exception. Logging is left out. Files cited: api_phono3py.py, create_force_constants.py, dataset.py, load.py, phono3py/api_phono3py.py, phono3py/cui/create_force_constants.py, phono3py/cui/load.py, phono3py/cui/phono3py_script.py, phono3py_script.py |
| `NameModel.v` | Names of result files and writing of joint density of states. Files cited: file_IO.py |
| `NigModel.v` | Niggli reduction of a lattice: c/niggli.c, and its use for BZ grids in c/gridsys.c. Lattices have the basis vectors as columns. Doubles are rationals; allocation does not fail. Files cited: c/gridsys.c, c/lagrid.c, c/niggli.c |
| `OptModel.v` | Command line options and configuration file tags: how a setting of a run gets its value. Sources: phono3py/cui/phono3py_argparse.py (get_parser) and phono3py/cui/settings.py (Phono3pySettings, Phono3pyConfParser). Files cited: phono3py/cui/phono3py_argparse.py, phono3py/cui/settings.py, phono3py_script.py, settings.py |
| `PhfModel.v` | Files of phonons (--write-phonon, --read-phonon) and the options -i, -o and --io, over a sequence of runs of the command. Source: phono3py/cui/phono3py_script.py, phono3py/file_IO.py, phono3py/phonon3/interaction.py. Phonons are values of a type [P] (frequencies and eigenvectors at all grid points); what is solved and what the arrays hold before are fields of a run. The directory and the text of names are those of NameModel.v. Runs that end before init_phph_interaction do not touch these files and are left out, as are the fields of the file that are not read back (version, irreducible points, matrices of the grid). Files cited: file_IO.py, interaction.py, phono3py/cui/phono3py_script.py, phono3py/file_IO.py, phono3py/phonon3/interaction.py, phono3py_script.py |
| `PhononModel.v` | Phonons on the grid: c/phonon.c, phono3py/phonon/solver.py, and the handling of the Gamma point in interaction.py, joint_dos.py, isotope.py. Files cited: c/phonon.c, interaction.py, isotope.py, joint_dos.py, phono3py/phonon/solver.py, phonon.c, solver.py |
| `PpFileModel.v` | Interaction strengths in hdf5 files, compressed by the mask of zeros. Files cited: file_IO.py |
| `R2nModel.v` | Interaction strength from fc3 in reciprocal space: c/reciprocal_to_normal.c 74-316, c/interaction.c 49-50, 189-281, and the Python version phono3py/phonon3/reciprocal_to_normal.py 86-121 with interaction.py 1004-1013.  Files cited: c/interaction.c, c/reciprocal_to_normal.c, interaction.py, phono3py/phonon3/reciprocal_to_normal.py, reciprocal_to_normal.py |
| `R2rModel.v` | fc3 in reciprocal space: c/real_to_reciprocal.c 77-400, its call in c/interaction.c 116-170 and 200-210, the table all_shortest of phono3py/phonon3/interaction.py 1049-1085, and the Python version phono3py/phonon3/real_to_reciprocal.py 64-121.  Files cited: c/interaction.c, c/real_to_reciprocal.c, interaction.c, interaction.py, phono3py/phonon3/interaction.py, phono3py/phonon3/real_to_reciprocal.py, real_to_reciprocal.py |
| `RestartModel.v` | Files of linewidths and restart of a conductivity calculation in relaxation time approximation: conductivity/utils.py (write_gamma 82-216, write_kappa 219-345, set_gamma_from_file 717-841), file_IO.py (read_gamma_from_hdf5 1071-1107), conductivity/rta.py (_allocate_values 167-195, _run_at_grid_point 196-230, get_thermal_conductivity_RTA 1005-1118), conductivity/base.py (__next__ 396-408, gamma setter 545-548).  Files cited: base.py, file_IO.py, interaction.py, rta.py, utils.py |
| `RotModel.v` | Rotations in the grid basis: c/grgrid.c:106-136, grid.py:471-522. Doubles are exact rationals. Files cited: c/grgrid.c, c/lagrid.c, grid.py, phono3py/phonon/grid.py |
| `RseModel.v` | Real part of the self-energy, Kramers-Kronig transform and spectral function: c/real_self_energy.c, phono3py/phonon3/real_self_energy.py, phono3py/phonon3/spectral_function.py. Arrays are functions of the index; [phi] is fc3_normal_squared (shape num_triplets, num_band0, num_band, num_band, flattened), [freq] the frequencies (grid point * num_band + band), [bose f t] funcs_bose_einstein / bose_einstein, [pi] the number pi. Files cited: c/real_self_energy.c, file_IO.py, imag_self_energy.py, phono3py/phonon3/real_self_energy.py, phono3py/phonon3/spectral_function.py, real_self_energy.py, spectral_function.py |
| `SesModel.v` | A session with a Phono3py object: force constants, NAC parameters, masses, bands and mesh that are set, and the Interaction object that is made by init_phph_interaction, its phonons and what runs use. Sources: phono3py/api_phono3py.py, phono3py/phonon3/interaction.py. Inputs are opaque values; arrays changed in place by the user are left out (fc3 is shared with the Interaction object if it is a contiguous array of doubles, 908-923). constant_averaged_interaction, frequency_scale_factor and the log are left out. Files cited: api_phono3py.py, imag_self_energy.py, interaction.py, phono3py/api_phono3py.py, phono3py/phonon3/interaction.py, real_self_energy.py, rta.py, solver.py, spectral_function.py |
| `SigModel.v` | Linewidths at a list of smearing widths: phono3py/conductivity/rta.py 232-305 (_set_gamma_at_sigmas) and 326-457 (_set_gamma_at_sigmas_lowmem), conductivity/direct_solution.py 458-536 (the loop of _set_gamma_and_collision_matrix), phonon3/imag_self_energy.py 103-157 (run, run_interaction, run_integration_weights), 242-254 (set_sigma), 299-330 (set_averaged_pp_interaction, set_interaction_strength, delete_integration_weights), phonon3/interaction.py 181-204 (run), 575-578 (set_interaction_strength), 932-976 (_run_c), conductivity/utils.py 958-989 (write_pp) and the parts of c/pp_collision.c 67-253 that IseModel.v and IseProps.v do not have. One grid point. Doubles are rationals. The averages over degenerate bands that follow are not done here; N and U parts, gamma_detail and the averaged interactions returned are left out. Files cited: c/interaction.c, c/pp_collision.c, direct_solution.py, imag_self_energy.py, interaction.py, phono3py/conductivity/rta.py, rta.py, triplets.py, utils.py |
| `SnfModel.v` | Model of c/snf3x3.c and c/grgrid.c:72-96 grg_get_snf3x3. In-place updates of A, P, Q are returned as new matrices. The number of steps of the bounded loop of extended_gcd is the parameter [F] (1000 in the code); the loop returns [None] when it has not finished, a case that cannot occur with F = 1000 for values below 2^499 in magnitude ([egcd_terminates] in SnfProofs); int64 overflow is not modelled. Files cited: c/grgrid.c, c/snf3x3.c |
| `SolModel.v` | Solvers of the direct solution: which routine a request is given to, what the routine leaves in the array of the collision matrices of all smearing widths and temperatures, and what is written to files afterwards. Sources: phono3py/conductivity/utils.py, phono3py/conductivity/ direct_solution.py, c/_phono3py.cpp, c/lapack_wrapper.c, phono3py/file_IO.py. Arrays are functions of their indices or, for the array of the collision matrices, of the position in memory. Files cited: c/_phono3py.cpp, c/lapack_wrapper.c, direct_solution.py, file_IO.py, phono3py/conductivity/utils.py, phono3py/file_IO.py, utils.py |
| `SschaModel.v` | Stochastic self-consistent harmonic approximation: displacement correlation matrices of supercell phonons and force constants as ensemble averages. Source: phono3py/sscha/sscha.py, phono3py/phonon/func.py. Numbers are those of any field in which a sum of squares vanishes only if its terms do ([numbers]); arrays are functions of their indices. Files cited: func.py, phono3py/phonon/func.py, phono3py/sscha/sscha.py, sscha.py |
| `TetraModel.v` | Model of the linear tetrahedron method: c/tetrahedron_method.c. Files cited: c/tetrahedron_method.c |
| `TiwModel.v` | The Python implementation of the integration weights of triplets: phono3py/phonon3/triplets.py 148-226 (get_triplets_integration_weights), 373-407 (_set_triplets_integration_weights_py), 410-424 (_get_tetrahedra_vertices). The C implementation is in IwModel.v. Doubles are rationals; [gauss] is gaussian of phonon/func.py; [engine f0 ts] is what phonopy's TetrahedronMethod returns at f0 for the tetrahedra with values ts; [rel] its relative grid addresses (thm.tetrahedra) after the product with P (line 383). Files cited: func.py, phono3py/phonon3/triplets.py |
| `TripletModel.v` | Model of c/triplet_grid.c and phono3py/phonon3/triplets.py: q-point triplets. Files cited: c/phono3py.c, c/triplet_grid.c, phono3py/phonon3/triplets.py, triplets.py |
| `VelModel.v` | Velocity operators by finite differences of the square root of the dynamical matrix. Source: phono3py/phonon/velocity_operator.py. Matrices are functions of two indices 0 .. n-1 with complex rational elements; q-points are functions of 0 .. 2. [eigh] stands for np.linalg.eigh, [csqrt] for the square root of complex numbers of numpy, [D q dir] for dynmat.run(q, q_direction=dir) followed by dynmat.dynamical_matrix. Files cited: phono3py/phonon/velocity_operator.py, velocity_operator.py |
| `WgpModel.v` | Grid points written for distributed runs (--wgp), numbers of triplets shown (--stp), and the grid points, weights and triplets that a run uses. Sources: phono3py/cui/triplets_info.py, phono3py/cui/phono3py_script.py, phono3py/file_IO.py, phono3py/conductivity/base.py, phono3py/conductivity/direct_solution.py, phono3py/phonon3/interaction.py. [mp] is the third value of get_ir_grid_points (phonon/grid.py:911-935) of the grid. Printing of numbers (formats, division by 1e6 and 1e9) is left out: sizes are in bytes. Files cited: base.py, direct_solution.py, file_IO.py, grid.py, interaction.py, phono3py/conductivity/base.py, phono3py/conductivity/direct_solution.py, phono3py/cui/phono3py_script.py, phono3py/cui/triplets_info.py, phono3py/file_IO.py, phono3py/phonon3/interaction.py, phono3py_script.py, triplets_info.py |
| `WigModel.v` | Wigner and Kubo conductivities: phono3py/conductivity/wigner.py, kubo.py, rta.py 654-970 (ConductivityWignerRTA, ConductivityKuboRTA), phonon/group_velocity_matrix.py 161-186, phonon/heat_capacity_matrix.py. One smearing width and one temperature; all bands are computed. Velocity operators and linewidths are arguments, as are [ex] (np.exp), [mode_cv] and np.linalg.eigvalsh. Doubles are rationals; a division by zero gives 0 (inf or nan in Python) unless said otherwise. Files cited: group_velocity_matrix.py, heat_capacity_matrix.py, kubo.py, phono3py/conductivity/wigner.py, rta.py, wigner.py |
| `WlbModel.v` | Wigner conductivity in the direct solution: phono3py/conductivity/direct_solution.py 1416-1693 (ConductivityWignerLBTE), with the mix-in of wigner.py, and what conductivity/utils.py 489-650 (ConductivityLBTEWriter.write_kappa) and 219-345 (ConductivityRTAWriter) write of it; the Wigner RTA calculation (rta.py 721-804) over a whole list of grid points. One smearing width and one temperature; all bands. The exact populations' conductivity (C111) is an argument. Files cited: base.py, direct_solution.py, phono3py/conductivity/direct_solution.py, rta.py, utils.py, wigner.py |
| `YamlModel.v` | Type-1 displacement dataset in phono3py yaml files. Files cited: phono3py_yaml.py |

Loops marked `#pragma omp parallel for` are modelled both sequentially and, where a
theorem says "every schedule", as programs of `Par.v`/`Par2.v`: atomic single reads
and writes in any interleaving (sequential consistency; a data race in C is undefined
behaviour, so these theorems speak of races only as the interleavings they allow).

## 4. What is not modelled

* Rounding and overflow: doubles are rationals, integers are unbounded.  Comparisons
  with tolerances are the comparisons of the code on exact numbers.
* `sqrt`, `exp`, `sinh`, `cos`, `sin` are function arguments; hypotheses on them are
  stated in the theorems (`respects`, `turns`, `even_odd`, `proper_cis`).  LAPACK
  (eigenvectors) and BLAS are arguments or their mathematical definition.
* phonopy, spglib, symfc/ALM/pypolymlp, numpy internals (other than indexing,
  broadcasting and modulo as used), HDF5 and yaml byte formats, plotting, the command
  line parser, logging and progress output, memory allocation failures.
* Not covered at all: parts of `phono3py/cui` (covered: the output writers named above,
  the sources of force constants and datasets in load.py and create_force_constants.py,
  options and configuration tags, run mode and order of stages of phono3py_script.py,
  collection of forces in create_force_sets.py, the data flow of kaccum_script.py), parts of
  `phono3py/interface` (covered: calculator strings, wien2k.py, datasets of
  phono3py_yaml.py), the machine-learning-potential interfaces, scripts that only plot.

## 5. Trusted base

* Coq 8.16.1's kernel, including its virtual machine (`vm_compute`) used in examples,
  refutation witnesses and finite tables; `coqchk` re-checks without the VM.
* The definitions in the model files as a reading of `/repo`.
* The specifications in the `*Spec.v`/`*Props.v` files as a reading of
  `properties.jsonl`.
* Axioms: `Print Assumptions` answers "Closed under the global context" for each of
  the 650 theorems of section 2 (no axiom of the standard library is used; no axioms
  of our own).  `coqchk`/the gate also lists seven parameters of the module
  `Coq.ssr.ssrunder.Under_rel` of the standard library: they belong to a file loaded
  with the standard library (`lia`/`setoid_ring` load `ssreflect`'s support) and no theorem
  here depends on them.
