{
 "claims": [
  {
   "property": "C01",
   "status": "proved",
   "theorems": [
    "C01_index_address_bijection",
    "C01_in_cell_representative_unique"
   ],
   "note": "grgrid.c index/address functions over unbounded integers, all positive meshes and all addresses"
  },
  {
   "property": "C02",
   "status": "proved",
   "theorems": [
    "C02_indexing_implementations_agree"
   ],
   "note": "write loop of get_all_grid_addresses and numpy-mod formula both proved equal to the C index"
  },
  {
   "property": "C03",
   "status": "proved",
   "theorems": [
    "C03_double_grid_round_trip"
   ],
   "note": "proved for every integer shift, not only 0/1"
  },
  {
   "property": "C04",
   "status": "proved",
   "theorems": [
    "C04_rotation_acts_on_grid"
   ],
   "note": "compat/shift_ok are exactly what BZGrid checks before accepting rotations (see C10)"
  },
  {
   "property": "C05",
   "status": "proved",
   "theorems": [
    "C05_ir_map_is_least_image",
    "C05_ir_map_equivalence",
    "C05_ir_map_order_independent"
   ],
   "note": "loop with break modelled as written; result characterised by least image"
  },
  {
   "property": "C06",
   "status": "proved",
   "theorems": [
    "C06_ir_points_and_weights",
    "C06_orbit_stabilizer",
    "C06_kstar_order_equals_weight"
   ],
   "note": "extract_ir_grid_points is phonopy code, modelled from its documented behaviour; tolerance comparison of _get_multiplicity_at_q replaced by exact equality"
  },
  {
   "property": "C07",
   "status": "proved",
   "theorems": [
    "C07_point_group_contents",
    "C07_point_group_distinct_no_time_reversal",
    "C07_point_group_failure",
    "C07_distinct_for_every_list_refuted"
   ],
   "note": "C07_distinct_for_every_list_refuted shows that the duplicate-freeness with time reversal really needs the group hypothesis"
  },
  {
   "property": "C08",
   "status": "proved",
   "theorems": [
    "C08_decomposition_exact",
    "C08_transformations_invertible",
    "C08_singular_fails"
   ],
   "note": "algorithm of snf3x3.c with its iteration bounds; determinants, sign of Q, positivity, product; failure for zero determinant"
  },
  {
   "property": "C09",
   "status": "partial",
   "theorems": [
    "C09_divisor_chain_refuted",
    "C09_second_divides_third_partial"
   ],
   "note": "refuted by diag(2,2,3) -> (2,1,6); proved part: D2 | D3 for every matrix"
  },
  {
   "property": "C10",
   "status": "proved",
   "theorems": [
    "C10_transformed_rotations_exact",
    "C10_failure_iff_not_integral",
    "C10_products_preserved",
    "C10_accepted_rotations_are_grid_symmetries",
    "C10_large_mesh_refuted"
   ],
   "note": "exact for mesh numbers below 100000 (the tolerance 1e-5 of the code); C10_large_mesh_refuted shows the bound is needed"
  },
  {
   "property": "C11",
   "status": "proved",
   "theorems": [
    "C11_dense_layout",
    "C11_default_layout",
    "C11_doubled_mesh_table",
    "C11_index_from_address",
    "C11_failure_iff_not_unimodular",
    "C11_addresses_distinct"
   ],
   "note": "over rationals; tolerance computed as in the code; kept iff < shortest+tol, none >= shortest+2 tol (the running minimum of the code may be up to tol above the true one); doubled-mesh table under no_short_G"
  },
  {
   "property": "C12",
   "status": "partial",
   "theorems": [
    "C12_buffer_suffices_partial",
    "C12_buffer_size_refuted"
   ],
   "note": "refuted for a flat lattice (9 addresses for 8 rows); proved when no reciprocal lattice vector is shorter than twice the tolerance"
  },
  {
   "property": "C13",
   "status": "partial",
   "theorems": [
    "C13_rotation_finds_stored_point",
    "C13_dense_rotation_equivalent",
    "C13_python_agrees",
    "C13_stored_points_closed_under_symmetry",
    "C13_default_fallback_refuted"
   ],
   "note": "stored rotated points are found exactly, dense layout always equivalent, Python version agrees; default layout's fallback refuted; stored set closed under isometries without tolerance-band lengths"
  },
  {
   "property": "C14",
   "status": "proved",
   "theorems": [
    "C14_map_is_smallest_equivalent",
    "C14_map_partitions",
    "C14_fill_order_irrelevant",
    "C14_time_reversal"
   ],
   "note": "both loops as written, any execution order of the parallel loop; equivalence stated on addresses"
  },
  {
   "property": "C15",
   "status": "partial",
   "theorems": [
    "C15_triplets_conserve_momentum",
    "C15_nosym_triplets",
    "C15_default_layout_surface_point_refuted"
   ],
   "note": "dense layout: every stored point; default layout: first point below the number of grid points. C15_default_layout_surface_point_refuted: a surface copy in the default layout reads gp_map out of range and can return (-1,-1,-1)"
  },
  {
   "property": "C16",
   "status": "partial",
   "theorems": [
    "C16_zero_G_found_partial",
    "C16_smallest_G_refuted"
   ],
   "note": "G=0 is always found when available; minimality is false of the code (get_LQD_inv assigns instead of accumulating), witness on a 3x2x1 mesh"
  },
  {
   "property": "C17",
   "status": "proved",
   "theorems": [
    "C17_lowmem_N_and_U",
    "C17_detailed_N_and_U"
   ],
   "note": "detailed path and low-memory path, any thread schedule; interaction strengths and integration weights are arbitrary inputs; occupation function arbitrary non-negative above the cutoff"
  },
  {
   "property": "C18",
   "status": "proved",
   "theorems": [
    "C18_little_group"
   ],
   "note": "little group selection loop characterised for every group and every grid point"
  },
  {
   "property": "C19",
   "status": "partial",
   "theorems": [
    "C19_dense_neighbours",
    "C19_default_neighbours",
    "C19_vertices_conserve_momentum",
    "C19_default_exact_refuted"
   ],
   "note": "neighbours of tetrahedron vertices: dense layout exact for every lattice; default layout exact under no_short_G, refuted on a flat lattice (C19_default_exact_refuted); the two vertex lists conserve momentum"
  },
  {
   "property": "C20",
   "status": "proved",
   "theorems": [
    "C20_sort_omegas"
   ],
   "note": "sort_omegas: sorted permutation, ci is the rank of the centre vertex, all 24 orders"
  },
  {
   "property": "C21",
   "status": "proved",
   "theorems": [
    "C21_exact_integrated",
    "C21_exact_differential",
    "C21_partition",
    "C21_regions_agree"
   ],
   "note": "weights of tetrahedron_method.c equal the exact piecewise polynomials (integrated and differential), with the eps gap guard of the code as a hypothesis; partition of unity; regions agree at the joints"
  },
  {
   "property": "C22",
   "status": "proved",
   "theorems": [
    "C22_in_tetrahedra_sound",
    "C22_tetrahedron_weights",
    "C22_smearing_weights"
   ],
   "note": "tetrahedron and smearing loops under any OpenMP schedule; shortcut thm_in_tetrahedra changes nothing; zero flag implies zero weights"
  },
  {
   "property": "C23",
   "status": "partial",
   "theorems": [
    "C23_term",
    "C23_monotone_partial",
    "C23_vertex_refuted",
    "C23_close_vertices_refuted"
   ],
   "note": "monotone for gaps above the code's guard (partial); refuted at vertex energies and for close vertices"
  },
  {
   "property": "C24",
   "status": "proved",
   "theorems": [
    "C24_tetrahedra_tile",
    "C24_shortest_diagonal"
   ],
   "note": "the table of 24 tetrahedra tiles space for every choice of main diagonal; shortest diagonal selection"
  },
  {
   "property": "C25",
   "status": "proved",
   "theorems": [
    "C25_mean_any_schedule",
    "C25_projection"
   ],
   "note": "loop of fc3_set_permutation_symmetry_fc3 as a parallel program; every interleaving of reads and writes"
  },
  {
   "property": "C26",
   "status": "proved",
   "theorems": [
    "C26_compact_agrees"
   ],
   "note": "lattice_tables is what the primitive/supercell tables satisfy; result equals the mean of six of the unfolded array"
  },
  {
   "property": "C27",
   "status": "partial",
   "theorems": [
    "C27_full",
    "C27_compact",
    "C27_compact_order_two_refuted"
   ],
   "note": "full layout proved; compact layout proved for supercells without translations of order two and refuted for a chain of two cells"
  },
  {
   "property": "C28",
   "status": "partial",
   "theorems": [
    "C28_transpose_exact",
    "C28_transpose_last",
    "C28_involution",
    "C28_order_two_refuted"
   ],
   "note": "involution always, last-two transposition always exact, types 0/1 exact without translations of order two; refuted for a chain of two cells (each self-paired block is swapped twice)"
  },
  {
   "property": "C29",
   "status": "proved",
   "theorems": [
    "C29_distribution_reconstructs",
    "C29_distribution_succeeds"
   ],
   "note": "search loop, C rotation loops, compact and two-stage full expansion; rows of an invariant tensor are reconstructed; success condition. similarity_transformation is an argument (op_cart) assumed orthogonal"
  },
  {
   "property": "C30",
   "status": "proved",
   "theorems": [
    "C30_cutoff",
    "C30_cutoff_keeps_symmetry",
    "C30_cutoff_sum_rule_refuted"
   ],
   "note": "distances are an argument; C30_cutoff_sum_rule_refuted records that the sum rule is not kept"
  },
  {
   "property": "C31",
   "status": "proved",
   "theorems": [
    "C31_symmetrized"
   ],
   "note": "in-place C loop, any thread schedule"
  },
  {
   "property": "C32",
   "status": "proved",
   "theorems": [
    "C32_expanded_invariant",
    "C32_expanded_rows",
    "C32_other_rows_kept",
    "C32_grid_is_action"
   ],
   "note": "C loops, any schedule; group action established for the grid rotation table in C32_grid_is_action"
  },
  {
   "property": "C33",
   "status": "proved",
   "theorems": [
    "C33_lookup",
    "C33_python_lookup",
    "C33_reducible_matrix",
    "C33_irreducible_matrix",
    "C33_python_matrices"
   ],
   "note": "lookup in C and Python, reducible and irreducible collision matrices in C under any schedule and in Python; interaction strengths and weights arbitrary with the crystal symmetry (established by C50/C24-type properties), 1/sinh an argument"
  },
  {
   "property": "C34",
   "status": "partial",
   "theorems": [
    "C34_average",
    "C34_collision_blocks",
    "C34_reducible_blocks_partial",
    "C34_reducible_columns_refuted"
   ],
   "note": "proved for average_by_degeneracy and for the symmetry-reduced collision matrix; for the reducible collision matrix columns of non-irreducible grid points are not averaged (refuted). degenerate_sets of phonopy is an argument"
  },
  {
   "property": "C35",
   "status": "proved",
   "theorems": [
    "C35_batches_cover_once",
    "C35_batches_do_not_matter"
   ],
   "note": "all lengths and batch sizes; body of the loop is an arbitrary function of the batch"
  },
  {
   "property": "C36",
   "status": "proved",
   "theorems": [
    "C36_variance_nonneg",
    "C36_variance_zero_iff",
    "C36_user_data_first"
   ],
   "note": "all isotope tables"
  },
  {
   "property": "C37",
   "status": "proved",
   "theorems": [
    "C37_supercells_in_order",
    "C37_forces_in_order",
    "C37_wrong_number_of_forces",
    "C37_solver_forces"
   ],
   "note": "type 1: proved for any nesting and any number of values (exact, too few, too many); type 2 is plain assignment"
  },
  {
   "property": "C38",
   "status": "partial",
   "theorems": [
    "C38_displacements_partial",
    "C38_displacements_refuted",
    "C38_solver_displacements_partial",
    "C38_solver_same_atom_refuted"
   ],
   "note": "rows of pairs lack the first displacement (refuted); single rows, type 2 rows and the rows given to solvers proved when atoms differ; same-atom pairs given to solvers refuted"
  },
  {
   "property": "C39",
   "status": "partial",
   "theorems": [
    "C39_supercells_are_current_partial",
    "C39_failed_assignment_refuted"
   ],
   "note": "proved for all sessions in which assignments to dataset return; refuted after an assignment to dataset that raises"
  },
  {
   "property": "C40",
   "status": "proved",
   "theorems": [
    "C40_parse_fc3",
    "C40_parse_fc2",
    "C40_fc3_round_trip",
    "C40_fc2_round_trip"
   ],
   "note": "type-1 datasets; the rounding done by the print format is an argument; a short FORCES_FC2 leaves the dataset unchanged and returns [], a short FORCES_FC3 raises"
  },
  {
   "property": "C41",
   "status": "partial",
   "theorems": [
    "C41_yaml_round_trip_partial",
    "C41_same_supercells",
    "C41_included_with_forces_refuted",
    "C41_order_refuted",
    "C41_no_second_refuted"
   ],
   "note": "yaml text layer not modelled (tree to tree), rounding by the format is an argument; proved for second atoms as generated (ascending, distance and inclusion per atom); refuted: inclusion flags are lost in files with forces, unsorted second atoms are reordered or rejected, empty second lists cannot be read back"
  },
  {
   "property": "C42",
   "status": "proved",
   "theorems": [
    "C42_round_trip",
    "C42_lossless",
    "C42_plain"
   ],
   "note": "packbits/unpackbits modelled bit by bit; the hdf5 container is a record of datasets"
  },
  {
   "property": "C43",
   "status": "partial",
   "theorems": [
    "C43_name_partial",
    "C43_mesh_partial",
    "C43_numbers",
    "C43_names_refuted"
   ],
   "note": "non-negative parameters; %f modelled as round-half-even to 6 decimals of the exact value; refuted: mesh numbers are written without separator, sigmas closer than 1e-6, output names that look like decimals"
  },
  {
   "property": "C44",
   "status": "partial",
   "theorems": [
    "C44_at_gamma_partial",
    "C44_elsewhere_partial",
    "C44_joint_dos_api",
    "C44_isotope_first_run_partial",
    "C44_stale_refuted",
    "C44_nac_elsewhere_refuted",
    "C44_nosym_refuted",
    "C44_error_refuted",
    "C44_joint_dos_refuted",
    "C44_isotope_refuted"
   ],
   "note": "interaction with mesh symmetry: proved at Gamma for every history; elsewhere proved for histories that do not solve Gamma with a direction by a whole-grid call, refuted otherwise; refuted without mesh symmetry, for JointDos itself and for isotope; proved for any sequence of runs through the joint DOS api"
  },
  {
   "property": "C45",
   "status": "partial",
   "theorems": [
    "C45_undone_fits",
    "C45_phonons",
    "C45_order",
    "C45_runs",
    "C45_nolapack_partial",
    "C45_nolapack_other_points_refuted"
   ],
   "note": "proved for the LAPACKE path under every thread schedule and every sequence of requests; in the path without LAPACKE points not requested are changed (refuted), proved there for the requested points"
  },
  {
   "property": "C46",
   "status": "partial",
   "theorems": [
    "C46_restart",
    "C46_complete",
    "C46_mixed_parts_refuted",
    "C46_read_bands_refuted"
   ],
   "note": "proved for any sequence of interrupted runs with one N/U setting, reading with all bands (success with the computed values iff every linewidth is available, otherwise None); refuted: files with and without N/U parts mixed; a reading run with a subset of bands writes another band's linewidth"
  },
  {
   "property": "C47",
   "status": "partial",
   "theorems": [
    "C47_missing_partial",
    "C47_interrupted_refuted"
   ],
   "note": "proved which outcome occurs: a failure value iff files of the first grid point and its first band are absent at the first incomplete sigma; refuted: otherwise a TypeError is raised"
  },
  {
   "property": "C48",
   "status": "proved",
   "theorems": [
    "C48_sparse_sum_equals_full_sum",
    "C48_lowmem_sparse_sum_equals_full_sum"
   ],
   "note": "with_g (bands and frequency points) and low-memory paths, any thread schedule; needs that entries marked zero are zero (C25-type property of the weights) and non-negative occupation above the cutoff"
  },
  {
   "property": "C49",
   "status": "proved",
   "theorems": [
    "C49_phases",
    "C49_three_versions"
   ],
   "note": "C49_phases: every schedule of the parallel loop, every band subset and every g_zero; C49_three_versions: the three summation routines in the file compute the same number. Eigenvectors, masses' square roots and fc3 in reciprocal space are arguments."
  },
  {
   "property": "C50",
   "status": "partial",
   "theorems": [
    "C50_average",
    "C50_exchange",
    "C50_band_subset_refuted",
    "C50_sparse_refuted"
   ],
   "note": "Proved when all bands are chosen and no entry is skipped. Refuted with a band subset (the exchanged strengths are read from memory that was not written) and with the sparse g_pos of the low memory route in pp_collision.c."
  },
  {
   "property": "C51",
   "status": "partial",
   "theorems": [
    "C51_ids_follow_supercells",
    "C51_reported_duplicates",
    "C51_duplicates_partial",
    "C51_duplicates_complete",
    "C51_perfect_supercells_reported",
    "C51_perfect_supercell_partial",
    "C51_perfect_supercell_refuted"
   ],
   "note": "ids, order, inclusion flags proved; reported duplicates characterised exactly; entries [i, 0] refuted for atoms displaced in several directions"
  },
  {
   "property": "C52",
   "status": "proved",
   "theorems": [
    "C52_second_atoms_cover",
    "C52_one_operation"
   ],
   "note": "any positions, closeness test and operation list; the overwritten loop variable of _get_orbits is modelled"
  },
  {
   "property": "C53",
   "status": "proved",
   "theorems": [
    "C53_hermitian",
    "C53_value",
    "C53_gonze"
   ],
   "note": "Any q, any previous content of the array, with or without the Wang term (C53_hermitian); C53_value gives the elements and covers every schedule of the parallel loop; C53_gonze is the Gonze-Lee matrix with dd_q0 from dym_get_recip_dipole_dipole_q0. cos/sin, sqrt, exp are function arguments with the stated symmetries."
  },
  {
   "property": "C54",
   "status": "partial",
   "theorems": [
    "C54_one_temperature_partial",
    "C54_only_first_temperature",
    "C54_distinct_names",
    "C54_all_temperatures_refuted"
   ],
   "note": "refuted: the function returns inside its loop, only the first temperature is written; proved for one temperature; names of different temperatures are distinct"
  },
  {
   "property": "C55",
   "status": "proved",
   "theorems": [
    "C55_group_average"
   ],
   "note": "group average as used for tensors, any group given by its table"
  },
  {
   "property": "C56",
   "status": "partial",
   "theorems": [
    "C56_reject_partial",
    "C56_other_mesh_refuted",
    "C56_gamma_agrees_refuted"
   ],
   "note": "rejected only when the shape differs or all addresses differ (proved); refuted: data that agree in one component are accepted"
  },
  {
   "property": "C57",
   "status": "partial",
   "theorems": [
    "C57_python_rotation_agrees_partial",
    "C57_python_rotation_with_shift_refuted"
   ],
   "note": "agreement proved without shifts; with half shifts it is false of the code (witness: 4-fold rotation on a 3x3x2 mesh with shift (1,1,0))"
  },
  {
   "property": "C58",
   "status": "partial",
   "theorems": [
    "C58_symmetrize_full",
    "C58_symmetrize_compact",
    "C58_symmetrize_compact_order_two_refuted"
   ],
   "note": "full layout proved; compact proved without translations of order two, refuted with"
  },
  {
   "property": "C59",
   "status": "partial",
   "theorems": [
    "C59_translational_invariance_erases",
    "C59_api_on_compact_refuted"
   ],
   "note": "false of the code for compact arrays: with one atom per primitive cell set_translational_invariance erases all force constants (proved for every such supercell); set_permutation_symmetry leaves asymmetric arrays"
  },
  {
   "property": "C60",
   "status": "proved",
   "theorems": [
    "C60_first_row_exact"
   ],
   "note": "pinv is an argument characterised as a left inverse"
  },
  {
   "property": "C61",
   "status": "partial",
   "theorems": [
    "C61_python_and_C_agree_above_0K",
    "C61_python_and_C_agree_at_0K_refuted"
   ],
   "note": "agreement proved above 0 K; at 0 K the Python version ignores the cutoff frequency (refuted by a two-band witness)"
  },
  {
   "property": "C62",
   "status": "proved",
   "theorems": [
    "C62_event_classes_add_up"
   ],
   "note": "any thread schedule; includes 0 K"
  },
  {
   "property": "C63",
   "status": "proved",
   "theorems": [
    "C63_expanded_scalars",
    "C63_expanded_vectors"
   ],
   "note": "rotation table any group action"
  },
  {
   "property": "C64",
   "status": "proved",
   "theorems": [
    "C64_weights"
   ],
   "note": "any group action"
  },
  {
   "property": "C65",
   "status": "partial",
   "theorems": [
    "C65_frequency_points",
    "C65_at_bands_fails_refuted",
    "C65_at_bands_wrong_refuted"
   ],
   "note": "proved at frequency points; at band frequencies the temperature index is used on the sigma axis (refuted: run fails or stores wrong values)"
  },
  {
   "property": "C66",
   "status": "partial",
   "theorems": [
    "C66_gonze",
    "C66_gonze_gamma",
    "C66_wang_gamma",
    "C66_wang_refuted"
   ],
   "note": "Gonze-Lee: proved, at points not cancelled by a listed G the direction is ignored, at Gamma its term is stated. Wang: C66_wang_gamma at Gamma; refuted elsewhere (the direction given replaces q at every point solved in the call)."
  },
  {
   "property": "C67",
   "status": "partial",
   "theorems": [
    "C67_read_partial",
    "C67_grid_point_files",
    "C67_full_file_refuted",
    "C67_band_files_refuted",
    "C67_selected_refuted"
   ],
   "note": "collision matrix right at all temperatures for all file kinds, linewidths right with files per grid point; refuted: one-file and per-band linewidths are those of the first temperature, selected temperatures with per-grid-point files"
  },
  {
   "property": "C68",
   "status": "partial",
   "theorems": [
    "C68_computed_again",
    "C68_read_refuted"
   ],
   "note": "refuted; proved instead that everything is computed again whatever was read"
  },
  {
   "property": "C69",
   "status": "partial",
   "theorems": [
    "C69_all_grid_points_partial",
    "C69_given_grid_points_refuted"
   ],
   "note": "proved when all irreducible grid points are calculated; refuted for given grid points"
  },
  {
   "property": "C70",
   "status": "partial",
   "theorems": [
    "C70_number_partial",
    "C70_other_temperatures_refuted"
   ],
   "note": "rejected when the number in the one-file result differs from that of the calculation and is not 1 (proved); refuted: other temperatures of the same number, and a single other temperature, are accepted"
  },
  {
   "property": "C71",
   "status": "proved",
   "theorems": [
    "C71_wang",
    "C71_gonze"
   ],
   "note": "Both methods, any non-zero factor."
  },
  {
   "property": "C72",
   "status": "proved",
   "theorems": [
    "C72_acoustic"
   ],
   "note": "sqrt(m_i m_j) = r_i r_j and cos 0 = 1 are hypotheses on the function arguments."
  },
  {
   "property": "C73",
   "status": "proved",
   "theorems": [
    "C73_wang",
    "C73_gonze"
   ],
   "note": "cis(-x) = conj(cis x) is the hypothesis on cos and sin; dd_q0 from the model of dym_get_recip_dipole_dipole_q0 with G vectors closed under negation."
  },
  {
   "property": "C74",
   "status": "partial",
   "theorems": [
    "C74_periodic",
    "C74_wang_refuted"
   ],
   "note": "Proved without NAC; refuted for the Wang term, computed from the address as it is."
  },
  {
   "property": "C75",
   "status": "proved",
   "theorems": [
    "C75_ends",
    "C75_layout",
    "C75_number_of_states"
   ],
   "note": "C75_number_of_states asks four distinct values at the vertices of each tetrahedron, none equal to the frequency, and no two closer than the guard of the code around it; C75_layout and C75_ends have no such hypotheses."
  },
  {
   "property": "C76",
   "status": "proved",
   "theorems": [
    "C76_spectrum",
    "C76_ends",
    "C76_total",
    "C76_bounds",
    "C76_mean_free_path",
    "C76_mode_mean_free_path"
   ],
   "note": "C76_bounds asks that the sampling point equals no frequency and that no two frequencies around it are closer than the guard of the C code; C76_total and C76_ends do not."
  },
  {
   "property": "C77",
   "status": "partial",
   "theorems": [
    "C77_default_width",
    "C77_given_width_refuted"
   ],
   "note": "Refuted: a given sigma is replaced by 0.1 (kaccum.py:231-232). Proved for the default width."
  },
  {
   "property": "C78",
   "status": "partial",
   "theorems": [
    "C78_table_covers",
    "C78_default_table_refuted"
   ],
   "note": "Refuted: the default table has as many entries as rows of values and is indexed with BZ grid points, so it is read beyond its end. Proved when the table covers the BZ grid."
  },
  {
   "property": "C79",
   "status": "partial",
   "theorems": [
    "C79_inversion",
    "C79_rotation_refuted"
   ],
   "note": "Proved for inversion (time reversal). Refuted for other operations: simple cubic 4x4x4 mesh, reflection of y."
  },
  {
   "property": "C80",
   "status": "proved",
   "theorems": [
    "C80_legacy",
    "C80_average",
    "C80_compact"
   ],
   "note": "Both modes, any schedule, any previous memory contents; compact equals full."
  },
  {
   "property": "C81",
   "status": "proved",
   "theorems": [
    "C81_shift",
    "C81_strength",
    "C81_addresses",
    "C81_conserved"
   ],
   "note": "Array and strengths; eigenvectors at shifted q carry conjugate phases."
  },
  {
   "property": "C82",
   "status": "proved",
   "theorems": [
    "C82_asymmetric_refuted",
    "C82_shortcut",
    "C82_assert"
   ],
   "note": "The shortcut equals the average for symmetric, invariant fc3; the assertion of the table holds; C82_asymmetric_refuted shows that exchange symmetry of fc3 is needed (it is a hypothesis of the claim, not a defect)."
  },
  {
   "property": "C83",
   "status": "partial",
   "theorems": [
    "C83_legacy_refuted",
    "C83_exchange",
    "C83_shortcut",
    "C83_legacy_partial"
   ],
   "note": "Proved for make_r0_average, without and with the table of closing triplets. Without the average (legacy) only the second and third phonon may be exchanged; exchange of the first two refuted on a chain of three cells."
  },
  {
   "property": "C84",
   "status": "partial",
   "theorems": [
    "C84_refuted",
    "C84_partial"
   ],
   "note": "Equal up to a phase if, in every direction, no address component is zero or the components sum to zero. Refuted otherwise: addresses 0, 2, 2 on a mesh of 4, the Python version drops the reciprocal lattice vector and strengths differ."
  },
  {
   "property": "C85",
   "status": "partial",
   "theorems": [
    "C85_refuted",
    "C85_partial"
   ],
   "note": "Proved for the legacy mode with Gamma at the third place (and so, by C83, the second). Refuted for make_r0_average and for Gamma at the first place: shortest-vector conventions of the other origins do not cancel."
  },
  {
   "property": "C86",
   "status": "proved",
   "theorems": [
    "C86_reverse",
    "C86_strength"
   ],
   "note": "Array and strengths, both modes."
  },
  {
   "property": "C87",
   "status": "proved",
   "theorems": [
    "C87_legacy",
    "C87_average",
    "C87_shortcut",
    "C87_strength"
   ],
   "note": "Legacy, average over origins, and with the table of closing triplets; strengths follow for eigenvectors rotated with the crystal."
  },
  {
   "property": "C88",
   "status": "proved",
   "theorems": [
    "C88_matrix",
    "C88_frequencies",
    "C88_gonze"
   ],
   "note": "Eigenvalues in the rational model (rational lambda; squared frequencies); sqrt, exp and the phase factor are arguments. The rotated q-point is taken as the rotated vector itself, not shifted by a reciprocal lattice vector."
  },
  {
   "property": "C89",
   "status": "partial",
   "theorems": [
    "C89_golden_rule",
    "C89_languages_agree_partial",
    "C89_languages_agree_refuted"
   ],
   "note": "Formula proved for the C code, both kernels and any schedule. C and Python agree when no chosen mode is below the cutoff and, for the tetrahedron method, all bands are chosen in order; refuted otherwise (Python indexes the weights by band instead of by position, giving other numbers or an IndexError, and does not skip modes below the cutoff). Phonons and integration weights are inputs."
  },
  {
   "property": "C90",
   "status": "proved",
   "theorems": [
    "C90_sign",
    "C90_equivalent_points",
    "C90_equivalent_points_tetrahedron",
    "C90_eigenvector_choice"
   ],
   "note": "Gaussian smearing without conditions on the phonons; for the tetrahedron method the weights must be equal for bands that are mixed and must be carried along by the operation."
  },
  {
   "property": "C91",
   "status": "proved",
   "theorems": [],
   "note": "Hypothesis: frequencies, linewidths and velocities at grid points related by an operation are related by it band by band, or, for degenerate bands, the sum over bands turns as a tensor. All bands are computed; one temperature and smearing width."
  },
  {
   "property": "C92",
   "status": "partial",
   "theorems": [
    "C92_more_scattering_refuted",
    "C92_point_group",
    "C92_ignored"
   ],
   "note": "Symmetric and positive semidefinite, and point-group invariant, without further conditions. That more scattering does not increase the conductivity is proved when no linewidth is zero; refuted otherwise: modes with zero linewidth are left out, so adding scattering to them increases the conductivity."
  },
  {
   "property": "C93",
   "status": "partial",
   "theorems": [
    "C93_agrees_partial",
    "C93_agrees_refuted"
   ],
   "note": "Proved when the three lowest modes at Gamma are not above the cutoff frequency and sinh, mode_cv and the square root have their defining properties. Refuted otherwise: the direct solution always leaves out the first three modes at Gamma."
  },
  {
   "property": "C94",
   "status": "partial",
   "theorems": [
    "C94_full_matrix_partial",
    "C94_full_matrix_refuted"
   ],
   "note": "Proved when frequencies above the cutoff are the same at the BZ-grid point whose index is the index of the grid point on the regular grid. Refuted otherwise: the code indexes the array of frequencies by the wrong kind of grid index, so that a mode of imaginary frequency elsewhere puts out a mode."
  },
  {
   "property": "C95",
   "status": "proved",
   "theorems": [
    "C95_same_lattice",
    "C95_reduced",
    "C95_not_longer",
    "C95_successive_minima"
   ],
   "note": "Exact arithmetic. The reduction is not claimed to end within 100 passes. Successive minima: numbers compared by the reduction that are within the tolerance are equal (always so for tolerance 0). C95_not_longer: the sum of squared lengths grows by at most the tolerance per round, so not at all for tolerance 0."
  },
  {
   "property": "C96",
   "status": "partial",
   "theorems": [
    "C96_first_brillouin_zone",
    "C96_success_iff",
    "C96_every_lattice_refuted"
   ],
   "note": "Shortest among all translates when near ties of the reduced basis are exact; completeness when every reciprocal lattice vector has squared length at least twice the tolerance. Success exactly when the reduction ends and the determinant is at least 1e-5; that every lattice gets a grid is refuted by a cubic cell of 50 Angstrom."
  },
  {
   "property": "C97",
   "status": "proved",
   "theorems": [
    "C97_exchange",
    "C97_below_continuum",
    "C97_bounded",
    "C97_small_epsilon"
   ],
   "note": "Exact arithmetic; the occupation is an argument. A line exactly at the point with epsilon 0 (0/0 in C) is 0 in the model."
  },
  {
   "property": "C98",
   "status": "proved",
   "theorems": [
    "C98_kramers_kronig",
    "C98_refused",
    "C98_spectral",
    "C98_spectral_bounds"
   ],
   "note": "Exact arithmetic; pi is an argument. Agreement with the directly computed shifts is for delta functions on the frequency points and epsilon 0; smearing and tetrahedron weights are not covered by that part."
  },
  {
   "property": "C99",
   "status": "partial",
   "theorems": [
    "C99_group_mean",
    "C99_spectral_bands_partial",
    "C99_spectral_bands_refuted",
    "C99_deltas_name_refuted"
   ],
   "note": "Proved: means over groups; band indices for one group. Refuted: with several groups spectral-*.hdf5 gets the indices and the name of the last group only; deltas-*.hdf5 ignores the bands and the output file name."
  },
  {
   "property": "C100",
   "status": "partial",
   "theorems": [
    "C100_meaning",
    "C100_origin",
    "C100_opposite",
    "C100_gauge",
    "C100_relaxed",
    "C100_monatomic",
    "C100_scale",
    "C100_rows",
    "C100_compact_refuted",
    "C100_supercells_refuted",
    "C100_positions",
    "C100_scalar"
   ],
   "note": "Proved: meaning, relaxation, invariances, rows read for full arrays. Refuted: compact force constants pass the check of the script and are then indexed with supercell indices (IndexError unless the primitive atoms come first); the check for equal supercells compares numbers of rows only. NAC terms do not depend on fc3 and are not in the model."
  },
  {
   "property": "C101",
   "status": "proved",
   "theorems": [
    "C101_python",
    "C101_temperature",
    "C101_zero",
    "C101_python_and_C_agree",
    "C101_none",
    "C101_total"
   ],
   "note": "Exact arithmetic; integration weights, their zero flags and the Bose-Einstein function are arguments."
  },
  {
   "property": "C102",
   "status": "partial",
   "theorems": [
    "C102_exchange",
    "C102_symmetric",
    "C102_semidefinite",
    "C102_nonneg",
    "C102_point_group",
    "C102_gauge",
    "C102_velocities_refuted"
   ],
   "note": "One smearing width and temperature, all bands computed, exact arithmetic; velocity operators, linewidths, heat capacities and eigvalsh are arguments. C102_twice: a second set_kappa_at_sigmas doubles the arrays. C102_velocities_refuted: velocities of degenerate modes are not covariant under rotations."
  },
  {
   "property": "C103",
   "status": "partial",
   "theorems": [
    "C103_cold_refuted",
    "C103_warm",
    "C103_wigner",
    "C103_site_diagonal",
    "C103_site_refuted",
    "C103_hermitian",
    "C103_products"
   ],
   "note": "The functional equation of exp is assumed at the two values in use. Refuted parts: near-degenerate elements of the heat capacity matrix are not symmetric (C103_cv_asymmetric_refuted), one mode above 100 kB T removes those of all modes (C103_cold_refuted), a band below the cutoff ends the loop over second bands, which leaves nothing at the zone centre (C103_return_refuted), site symmetrisation destroys off-diagonal elements (C103_site_refuted)."
  },
  {
   "property": "C104",
   "status": "partial",
   "theorems": [
    "C104_structure",
    "C104_dataset",
    "C104_phonon_dataset",
    "C104_force_constants",
    "C104_sequence_refuted",
    "C104_type1_refuted",
    "C104_fc2_file_refuted",
    "C104_named_forces_refuted",
    "C104_yaml_forces_refuted",
    "C104_not_found_refuted",
    "C104_nothing_refuted",
    "C104_short_file_refuted",
    "C104_cutoff"
   ],
   "note": "Proved for the order that the code follows. Refuted against the documentation: a force file named in the call is not used when fc3.hdf5 is present (C104_named_forces_refuted) or phono3py_yaml has forces (C104_yaml_forces_refuted); the documented pair of file names (C104_sequence_refuted) and type-1 files without phono3py_yaml (C104_type1_refuted) never work; forces_fc2_filename is ignored without phonon supercell matrix; a missing dataset is a TypeError with a calculator; a short FORCES_FC2 is not refused. phonopy's readers, unit tables and index check are arguments; NAC parameters and MLPs are not in the model."
  },
  {
   "property": "C105",
   "status": "partial",
   "theorems": [
    "C105_store",
    "C105_again",
    "C105_read",
    "C105_write",
    "C105_read_back",
    "C105_no_fc3_refuted",
    "C105_cutoff_refuted",
    "C105_own_file_refuted",
    "C105_fc3_made",
    "C105_lbte_phonon_refuted"
   ],
   "note": "Refuted: --cutoff-fc3 of phono3py-load overwrites the fc3.hdf5 that was read, later runs without it use the cut one (C105_cutoff_refuted); with compact force constants and two supercells the second run refuses the fc2.hdf5 of the first (C105_own_file_refuted); runs that do not need fc3 fail when fc2 is to be computed (C105_no_fc3_refuted); with --lbte --write-phonon fc3 is skipped though the run needs it (C105_lbte_phonon_refuted). Solvers and the cutting are arguments; the repetition with symfc and the symmetrisation of arrays that were read are not in the model."
  },
  {
   "property": "C106",
   "status": "partial",
   "theorems": [
    "C106_one",
    "C106_two",
    "C106_params",
    "C106_cutoff",
    "C106_cutoff_alone",
    "C106_orders",
    "C106_dictionary_refuted",
    "C106_last_refuted",
    "C106_unknown_refuted",
    "C106_dictionary",
    "C106_alm"
   ],
   "note": "ASCII strings. Refuted: options as a dictionary let the pair cutoff reach fc2 and stay in the caller's dictionary (C106_dictionary_refuted); with three parts the last is not fc3 (C106_last_refuted); an unknown or blank name before the bar makes the other calculator that of both orders (C106_unknown_refuted)."
  },
  {
   "property": "C107",
   "status": "partial",
   "theorems": [
    "C107_precedence",
    "C107_N_U_tag_refuted",
    "C107_N_U_option",
    "C107_conductivity_type",
    "C107_pp_unit_conversion_refuted",
    "C107_r0_average_tag_refuted",
    "C107_v2_option"
   ],
   "note": "Proved for 50 options (C107_precedence) and the type of conductivity. Refuted: the documented tag N_U of a configuration file never has an effect (C107_N_U_tag_refuted); --pp-unit-conversion never has an effect (C107_pp_unit_conversion_refuted); FC3_R0_AVERAGE in a file has no effect without --v2, and --v2 does not win over FC3_R0_AVERAGE = .TRUE. in a file. Conversions of texts to numbers are an argument (accepted or not); options handled by phonopy's own parser (mesh, sigma, tmax, ...) are outside /repo."
  },
  {
   "property": "C108",
   "status": "partial",
   "theorems": [
    "C108_only_requested",
    "C108_at_most_one",
    "C108_single_request",
    "C108_refused",
    "C108_spf_refuted",
    "C108_write_phonon_refuted",
    "C108_br_lbte_refuted",
    "C108_gruneisen_jdos_refuted",
    "C108_displacements",
    "C108_isotope_refuted",
    "C108_grid_points_refuted"
   ],
   "note": "Proved for all settings: only requested calculations, at most one; the single complete request is performed; a request of displacements writes all files (C108_displacements); missing mesh or grid points are refused for all but --spf. Refuted parts: C108_spf_refuted (missing mesh/grid points of --spf are a TypeError after the force constants were made), C108_write_phonon_refuted (without mesh; and with --lbte, where fc3 is passed over), C108_br_lbte_refuted (RTA shown, direct solution run), C108_gruneisen_jdos_refuted, C108_isotope_refuted (exit without error and without calculation), C108_grid_points_refuted (grid addresses in a file win over --gp)."
  },
  {
   "property": "C109",
   "status": "partial",
   "theorems": [
    "C109_temperatures",
    "C109_tmax_included",
    "C109_tmax_refuted",
    "C109_spectra_refuted",
    "C109_ts",
    "C109_sigmas",
    "C109_sampling",
    "C109_isotope_cutoff_refuted"
   ],
   "note": "Proved for all values in exact arithmetic. Refuted parts: C109_tmax_refuted (a temperature above tmax is used when less than a tenth of a step is missing), C109_spectra_refuted (--tmin, --tmax, --tstep never reach the self energies and the spectral function: 0 and 300 K), C109_isotope_cutoff_refuted (0 instead of 0.01 for --isotope)."
  },
  {
   "property": "C110",
   "status": "partial",
   "theorems": [
    "C110_solved",
    "C110_read",
    "C110_round_trip",
    "C110_read_write_refuted",
    "C110_forced_zero_refuted"
   ],
   "note": "Refuted parts: C110_read_write_refuted (with both options the file is overwritten by unsolved zeros, which are read back), C110_forced_zero_refuted (the solver runs again at Gamma and restores the frequencies that were put to zero)."
  },
  {
   "property": "C111",
   "status": "partial",
   "theorems": [
    "C111_solvers_full",
    "C111_solvers_reduced",
    "C111_solves",
    "C111_builtin_inverse",
    "C111_f_vectors",
    "C111_modes",
    "C111_kappa",
    "C111_positive",
    "C111_null_space",
    "C111_null_space_refuted",
    "C111_positive_refuted"
   ],
   "note": "Equality of full and reduced results, of solvers and the built-in inverse proved over any field in which sums of squares vanish only trivially. Positive semidefiniteness is proved when only eigenvalues above the cutoff are kept (pinv_method 1) and refuted for the default pinv_method 0 (C111_positive_refuted). The count of ignored dimensions in the log is right with pinv_method 0 and refuted with pinv_method 1 (C111_null_space_refuted)."
  },
  {
   "property": "C112",
   "status": "partial",
   "theorems": [
    "C112_params",
    "C112_forces_fc3",
    "C112_all_or_nothing",
    "C112_refuses",
    "C112_fc2",
    "C112_force_sets_from_fc3",
    "C112_fc2_calculator_refuted",
    "C112_wrong_number_with_zero_refuted",
    "C112_no_energies_refuted",
    "C112_fc2_number_refuted",
    "C112_old_forces_refuted",
    "C112_excluded_pairs_refuted",
    "C112_params_rest",
    "C112_type2",
    "C112_force_sets_from_fc2"
   ],
   "note": "Proved for type-1 datasets: both kinds of file, all exclusion patterns, any calculator function, missing files and wrong numbers of fc3 files, and that nothing is written before all collections succeed. Refuted: fc2 forces are read with the calculator of the command line instead of that of the displacement file (C112_fc2_calculator_refuted); a wrong number of files together with --cfz ends in UnboundLocalError (C112_wrong_number_with_zero_refuted); type-2 datasets need energies for phono3py_params.yaml (C112_no_energies_refuted); the number of fc2 files is not checked (C112_fc2_number_refuted); type-2 datasets that have forces keep the old ones (C112_old_forces_refuted); excluded pairs have no forces in phono3py_params.yaml and the force-constant solvers refuse it (C112_excluded_pairs_refuted). The parsers of calculator files belong to phonopy and are a function argument."
  },
  {
   "property": "C113",
   "status": "partial",
   "theorems": [
    "C113_inverse",
    "C113_exponent",
    "C113_eigenvectors",
    "C113_mesh",
    "C113_least_squares",
    "C113_harmonic",
    "C113_cubic",
    "C113_no_cubic",
    "C113_prefactor_refuted",
    "C113_drift_refuted",
    "C113_error_state",
    "C113_error_state_refuted"
   ],
   "note": "Proved over any field where sums of squares vanish only trivially: generalized inverses of each other, symmetry, identity if all modes are kept, the exponent as sum over modes, independence of eigenvectors, agreement of the mesh class under the stated law of phonopy's transformation, least squares optimality and exact recovery for SecondOrderFC (pinv being the Moore-Penrose inverse), cubic force constants for snapshots with Gaussian moments, zero for harmonic forces with zero mean displacement. Refuted: the prefactor lacks the masses so that the documented probability is not normalized over displacements (C113_prefactor_refuted); a mean displacement turns harmonic forces into cubic force constants (C113_drift_refuted); after a FloatingPointError in sigma_squared numpy stays in the raising state (C113_error_state_refuted)."
  },
  {
   "property": "C114",
   "status": "partial",
   "theorems": [
    "C114_square",
    "C114_unique",
    "C114_derivative",
    "C114_hermitian",
    "C114_direction_unused",
    "C114_frequencies",
    "C114_time_reversal",
    "C114_gamma",
    "C114_cutoff_refuted",
    "C114_displacement",
    "C114_sign"
   ],
   "note": "Proved: square, uniqueness, finite difference identity, Hermiticity, diagonal elements, time reversal, the modes left out next to the origin, that the perturbation direction and the cutoff are not used. Refuted: velocities below the documented cutoff_frequency are not zero (C114_cutoff_refuted). Complex rational matrices; the square root of numpy is a function with its law at the eigenvalues used."
  },
  {
   "property": "C115",
   "status": "proved",
   "theorems": [
    "C115_hermitian",
    "C115_cutoff",
    "C115_degenerate",
    "C115_trace",
    "C115_orthonormal",
    "C115_diagonal"
   ],
   "note": "All parts proved for the matrices before the symmetrization (which is in C103): C115_hermitian, C115_cutoff, C115_diagonal, C115_degenerate, C115_orthonormal, C115_trace."
  },
  {
   "property": "C116",
   "status": "partial",
   "theorems": [
    "C116_imaginary",
    "C116_units",
    "C116_threshold_refuted",
    "C116_degenerate_refuted",
    "C116_attributes_refuted"
   ],
   "note": "Proved: elements and sums of the coherences' part (no two modes exactly 1e-4 THz apart), imaginary parts cancel, unit factors, populations' part when populated modes are not degenerate, totals in the file. Refuted: pairs exactly at the threshold are lost in the direct solution; degenerate modes give other populations' parts since velocities are eigenvalues per direction; the attributes kappa_TOT_RTA and kappa_TOT_exact stay zero. With the full collision matrix the coherences' part is zero (C116_full_matrix; the code warns)."
  },
  {
   "property": "C117",
   "status": "partial",
   "theorems": [
    "C117_collective_total",
    "C117_collective_Y",
    "C117_collective_positive",
    "C117_mean_free_path",
    "C117_mean_free_path_rta",
    "C117_f_vectors",
    "C117_f_vectors_refuted",
    "C117_collective_modes_refuted",
    "C117_mean_free_path_sign_refuted",
    "C117_mean_free_path_small_refuted"
   ],
   "note": "Proved: the conductivity with solve_collective_phonon is that of the ordinary solution (C117_collective_total; the matrix that is diagonalized is symmetric, so reading one triangle is right), Y is the same (C117_collective_Y), diagonal elements of the contributions are not negative for pseudo-inverses without negative eigenvalues (C117_collective_positive), heat capacities, velocities and mean free paths make up the conductivity (C117_mean_free_path), the value in the relaxation time approximation (C117_mean_free_path_rta), what the f-vector array holds (C117_f_vectors). Refuted: contributions of single modes are not those of the ordinary solution (C117_collective_modes_refuted), the mean free path has the sign opposite to the group velocity (C117_mean_free_path_sign_refuted), modes with a heat capacity below 1e-10 have none (C117_mean_free_path_small_refuted), every file holds the f-vectors of the last smearing width and temperature (C117_f_vectors_refuted)."
  },
  {
   "property": "C118",
   "status": "proved",
   "theorems": [
    "C118_operations_found",
    "C118_points_kept",
    "C118_wang",
    "C118_gonze"
   ],
   "note": "C118_wang and C118_gonze: for every crystal in the sense of R2rProps2.crystal and every operation as in DynSym.operation, the run ends and all points are solutions with frequencies equal to the direct ones (same_spectrum: two ascending unitary diagonalisations of a matrix have equal eigenvalues). C118_operations_found: the reciprocal operation is always found. C118_points_kept: rotation of BZ points as hypothesised holds for the BZ grid. The eigensolver is a function assumed to return ascending eigenvalues with a unitary matrix; rounding is not modelled."
  },
  {
   "property": "C119",
   "status": "partial",
   "theorems": [
    "C119_three_numbers",
    "C119_matrix",
    "C119_length",
    "C119_plain_length",
    "C119_symmetry",
    "C119_grg_symmetry",
    "C119_ignored_refuted",
    "C119_negative_refuted",
    "C119_transformation_matrix_refuted"
   ],
   "note": "C119_three_numbers, C119_matrix, C119_length: the sampled points. C119_symmetry: operations are accepted iff they preserve the sampled points. C119_grg_symmetry: grids made from a length have the symmetry, for operations that mix only conventional reciprocal vectors of equal length. C119_plain_length: fallback without GRG. Refuted parts: C119_ignored_refuted (nine numbers for a cell that is not primitive, or a wrong number of values, silently give the 1x1x1 grid), C119_negative_refuted (a conventional cell turned by 180 degrees gives negative mesh numbers), C119_transformation_matrix_refuted (the check that the inverse is an integer matrix never fires unless all nine elements are off)."
  },
  {
   "property": "C120",
   "status": "partial",
   "theorems": [
    "C120_pairs",
    "C120_symmetric",
    "C120_zero",
    "C120_mean",
    "C120_exact",
    "C120_distances",
    "C120_sum_rule_refuted"
   ],
   "note": "Proved: the table of computed pairs is the orbit of the dataset pairs (C120_pairs; the code keeps only the images under the last reduced site symmetry, which is enough because all operations of the crystal are applied afterwards), mean (C120_mean), permutation symmetry (C120_symmetric), zero elements (C120_zero, C120_distances), exactness (C120_exact). The sum rule is refuted (C120_sum_rule_refuted): zeroing the elements of three distant atoms breaks vanishing sums."
  },
  {
   "property": "C121",
   "status": "partial",
   "theorems": [
    "C121_scalar",
    "C121_dos",
    "C121_tensor",
    "C121_gv",
    "C121_conductivity",
    "C121_temperature",
    "C121_absent_temperature_refuted",
    "C121_three_scalars_refuted",
    "C121_no_gridsym_refuted",
    "C121_gv_mfp_refuted"
   ],
   "note": "Proved: C121_scalar, C121_dos, C121_tensor, C121_gv, C121_conductivity (last line = Boltzmann sum over all grid points), C121_temperature. Refuted parts: --pqj, --gruneisen and --gv-norm never print a spectrum (C121_three_scalars_refuted), a temperature that is not in the file ends in a TypeError (C121_absent_temperature_refuted), --no-gridsym fails unless the file has one row for each point of the mesh (C121_no_gridsym_refuted), --gv --mfp fails with several temperatures (C121_gv_mfp_refuted)."
  },
  {
   "property": "C122",
   "status": "partial",
   "theorems": [
    "C122_tetrahedra",
    "C122_smearing",
    "C122_cutoff",
    "C122_negative_frequencies_refuted",
    "C122_cutoff_refuted"
   ],
   "note": "Proved for the tetrahedron method with non-negative frequencies (C122_tetrahedra), for smearing without cutoff (C122_smearing); with a cutoff they differ only where the C weights are zero because all three distances are beyond the cutoff (C122_cutoff). False for negative frequencies, which only the C function replaces by zero (C122_negative_frequencies_refuted), and with sigma_cutoff, which the Python implementation ignores (C122_cutoff_refuted). phonopy's tetrahedron engine is assumed to give the values of the C engine."
  },
  {
   "property": "C123",
   "status": "partial",
   "theorems": [
    "C123_alone",
    "C123_value",
    "C123_averaged",
    "C123_pp_file",
    "C123_lowmem",
    "C123_zero_width_refuted"
   ],
   "note": "Proved for widths other than zero. For a width of zero the loop that stores the strengths takes the tetrahedron method (`if sigma:`) and the low-memory loop does not (`if sigma is None`): C123_zero_width_refuted. N and U parts, gamma_detail and the averages over degenerate bands are left out."
  },
  {
   "property": "C124",
   "status": "partial",
   "theorems": [
    "C124_points",
    "C124_default",
    "C124_step",
    "C124_axis_end",
    "C124_nothing_beyond",
    "C124_spectra",
    "C124_no_grid_points",
    "C124_late_refuted",
    "C124_mesh_refuted",
    "C124_initialize_refuted",
    "C124_step_refuted"
   ],
   "note": "C124_spectra, C124_points, C124_step, C124_axis_end and C124_nothing_beyond prove the values, the files and the axis (tetrahedron method). Refuted: setting mesh_numbers, or calling initialize() with another mesh, leaves the spectra of the former mesh (C124_mesh_refuted, C124_initialize_refuted); initialize() on an object made without a mesh leaves a JointDos object without a grid (C124_late_refuted); with a frequency step the axis can stop below twice the highest frequency where weights are not zero (C124_step_refuted). The function for the density is an argument here; it is modelled in JdosModel.v and GammaModel.v (C101)."
  },
  {
   "property": "C125",
   "status": "proved",
   "theorems": [
    "C125_expansion",
    "C125_symmetrization"
   ],
   "note": "C125_expansion and C125_symmetrization; values over the rationals, numpy is taken to read overlapping operands before it writes. What the common result is, is C31 and C32."
  },
  {
   "property": "C126",
   "status": "proved",
   "theorems": [
    "C126_exact",
    "C126_succeeds"
   ],
   "note": "C126_exact, C126_succeeds. solve_force_constants, distribute_force_constants and the pseudo-inverse (phonopy, LAPACK) are arguments with the hypothesis that they are exact on exact data; so are site, reduced and bond symmetries. Built on C29 (expansion) and C60 (solution of the first rows); datasets with cutoff_distance are in C120."
  },
  {
   "property": "C127",
   "status": "partial",
   "theorems": [
    "C127_full",
    "C127_unchanged",
    "C127_compact",
    "C127_compact_first",
    "C127_same",
    "C127_label_refuted",
    "C127_order_two_refuted"
   ],
   "note": "Proved: full arrays (C127_full), compact arrays left as they were (C127_unchanged), second and third index of compact arrays (C127_compact), the number of the first index for supercells without translations of order two (C127_compact_first, C127_same). Refuted: the Cartesian indices shown for the first index of a compact array have the first two exchanged (C127_label_refuted); with a translation of order two a drift is shown that does not exist (C127_order_two_refuted). Printed digits and numpy's order of summation are not modelled."
  },
  {
   "property": "C128",
   "status": "partial",
   "theorems": [
    "C128_choice",
    "C128_runs",
    "C128_same_solution",
    "C128_numpy_inverse",
    "C128_files",
    "C128_file_6",
    "C128_other_temperatures",
    "C128_eigenvalues_7",
    "C128_last",
    "C128_not_compiled_refuted",
    "C128_default_refuted",
    "C128_unitary_refuted",
    "C128_zero_temperature_refuted",
    "C128_f_vector_refuted"
   ],
   "note": "Proved: the choice (C128_choice), when a run fails and with what (C128_runs), the same Y for all requests but 7 (C128_same_solution) and also for 7 if the eigenvalues cut off are zero and numpy.linalg.pinv returns the pseudoinverse (C128_numpy_inverse), eigenvectors and eigenvalues in the files for all requests but 6 and 7 at temperatures above zero (C128_files). Refuted: with 6 the file labelled as solver 3 holds the pseudoinverse (C128_unitary_refuted, C128_file_6); at zero temperature the files hold the collision matrix itself and the initial eigenvalues (C128_zero_temperature_refuted, C128_other_temperatures); with 7 the coleigs file holds the initial eigenvalues (C128_eigenvalues_7); the f-vectors in all files are those of the last temperature and smearing width (C128_f_vector_refuted, C128_last); without LAPACKE and SciPy the default request fails with AttributeError (C128_default_refuted) and without the C extension every request with UnboundLocalError (C128_not_compiled_refuted). The eigensolvers are arguments with the contract that they diagonalize the matrices of the input."
  },
  {
   "property": "C129",
   "status": "partial",
   "theorems": [
    "C129_evaluated",
    "C129_evaluated_all",
    "C129_phonon_evaluated",
    "C129_accepted",
    "C129_message_refuted",
    "C129_found",
    "C129_trained",
    "C129_no_potential",
    "C129_command",
    "C129_dim_fc2_refuted",
    "C129_load_function_refuted",
    "C129_excluded_refuted",
    "C129_data_refuted",
    "C129_files_refuted",
    "C129_filename_refuted",
    "C129_save_refuted",
    "C129_energies_refuted",
    "C129_stored",
    "C129_second_file",
    "C129_phonon_trained"
   ],
   "note": "Proved: energies and forces belong to the supercells (C129_evaluated, C129_evaluated_all, C129_phonon_evaluated), which data are accepted (C129_accepted), which file is used (C129_found), what a new potential is trained on (C129_trained, C129_no_potential), the whole command without phonon supercell (C129_command). Refuted: missing energies give KeyError instead of the message (C129_message_refuted); with a phonon supercell and no forces for it the command ends with exit 1 (C129_dim_fc2_refuted); phono3py.load(use_pypolymlp=True) computes no force constants (C129_load_function_refuted); a dataset with excluded pairs cannot be evaluated (C129_excluded_refuted); displacements without forces or pairs of displacements stop the command though a potential exists (C129_data_refuted); compressed files and directories with other files named polymlp.yaml* (C129_files_refuted); a file name given is ignored (C129_filename_refuted); saving the phonon potential (C129_save_refuted); the getter of energies raises when only forces were given (C129_energies_refuted). Training, saving and loading of one potential are phonopy's and are arguments."
  },
  {
   "property": "C130",
   "status": "partial",
   "theorems": [
    "C130_displacements",
    "C130_displacements_all",
    "C130_forces",
    "C130_forces_all",
    "C130_number_refuted",
    "C130_current_partial",
    "C130_failed_assignment_refuted",
    "C130_assigned",
    "C130_energies_all"
   ],
   "note": "Proved: C130_displacements, C130_displacements_all, C130_forces (types 1, matching counts), C130_forces_all (type 2: wrong shapes refused). Refuted: too few or too many forces are accepted for displacements of one atom (C130_number_refuted); a failing assignment of a dataset loses the previous one and keeps its supercells (C130_failed_assignment_refuted). C130_current_partial: the supercells are current unless an assignment of a dataset failed."
  },
  {
   "property": "C131",
   "status": "partial",
   "theorems": [
    "C131_same_points",
    "C131_representatives",
    "C131_given_points",
    "C131_distributed",
    "C131_noks_warning",
    "C131_triplets",
    "C131_shown",
    "C131_nomeshsym",
    "C131_addresses_refuted",
    "C131_phonon_memory",
    "C131_memory",
    "C131_noks_refuted",
    "C131_nomeshsym_refuted",
    "C131_direction_refuted",
    "C131_reducible_memory",
    "C131_memory_refuted"
   ],
   "note": "Proved: the file and the run have the same points and weights (C131_same_points), one per orbit with its size (C131_representatives), points given by number (C131_given_points), single runs cover the mesh (C131_distributed), triplets shown are those of the run with mesh symmetry (C131_triplets, C131_shown), their weights sum to the mesh without it (C131_nomeshsym), memory of the strength and collision matrix at all irreducible points (C131_memory), of the phonons (C131_phonon_memory) and of the reducible matrix (C131_reducible_memory). Refuted: --noks with --gp uses star weights and warns though the points are complete (C131_noks_warning, C131_noks_refuted); --nomeshsym has more triplets than shown (C131_nomeshsym_refuted); a q-direction at Gamma has more triplets than shown (C131_direction_refuted); --ga with --stp shows all points for the address at grid point 0 and raises ValueError for several (C131_addresses_refuted); the reducible collision matrix is larger than shown (C131_memory_refuted)."
  },
  {
   "property": "C132",
   "status": "partial",
   "theorems": [
    "C132_fc3_random",
    "C132_fc3_systematic",
    "C132_fc2_beside",
    "C132_fc2_random",
    "C132_fc2_systematic",
    "C132_fc2_only",
    "C132_fc2_auto_partial",
    "C132_reproducible",
    "C132_seed_recorded",
    "C132_command_fc3",
    "C132_command_fc2",
    "C132_cells",
    "C132_cells_fc2",
    "C132_fc2_reproducible",
    "C132_files",
    "C132_rd_fc2_files_refuted",
    "C132_yaml_matrix_refuted",
    "C132_fc2_auto_refuted",
    "C132_seed_refuted"
   ],
   "note": "Proved: C132_fc3_random, C132_fc3_systematic, C132_fc2_beside (fc2 displacements beside those of fc3), C132_fc2_random, C132_fc2_systematic, C132_fc2_only, C132_reproducible, C132_seed_recorded, C132_command_fc3, C132_command_fc2, C132_files. Refuted: \"auto\" for fc2 uses the supercell of fc3 (C132_fc2_auto_refuted; C132_fc2_auto_partial if both cells are the same); a seed out of range is dropped silently (C132_seed_refuted); --rd-fc2 without a phonon supercell matrix makes a dataset but no files (C132_rd_fc2_files_refuted); with the matrix from phono3py.yaml the sign option of fc2 has no effect (C132_yaml_matrix_refuted). Functions of phonopy and symfc are arguments."
  },
  {
   "property": "C133",
   "status": "partial",
   "theorems": [
    "C133_strengths",
    "C133_self_energies",
    "C133_phonons",
    "C133_nac",
    "C133_fresh",
    "C133_needs_init",
    "C133_init_raises",
    "C133_data",
    "C133_data_gamma_refuted",
    "C133_data_before_refuted",
    "C133_late_refuted",
    "C133_masses_refuted",
    "C133_gamma_refuted",
    "C133_direction_refuted",
    "C133_unsolved_refuted"
   ],
   "note": "Proved for runs and NAC parameters after an initialisation (C133_strengths, C133_phonons, C133_nac), self energies and spectral functions (C133_self_energies), independence of the history (C133_fresh), errors (C133_needs_init, C133_init_raises), phonons given by the user (C133_data). The rest is false: fc2, fc3 and band indices set after init_phph_interaction are not used (C133_late_refuted); masses set after it are used for phonons not yet solved but not for the others nor in the strengths (C133_masses_refuted); fc2 followed by nac_params leaves phonons of the old fc2 at Gamma (C133_gamma_refuted); set_phonon_data before init_phph_interaction is dropped (C133_data_before_refuted) and a run at Gamma replaces its phonons there (C133_data_gamma_refuted); get_phonon_data before a solution gives zeros (C133_unsolved_refuted); self energies with a direction raise at every grid point but Gamma (C133_direction_refuted). Changes of arrays in place are not modelled."
  },
  {
   "property": "C134",
   "status": "partial",
   "theorems": [
    "C134_fc3",
    "C134_exception",
    "C134_fc2_beside",
    "C134_fc2_stays",
    "C134_fc2",
    "C134_no_forces",
    "C134_both",
    "C134_session",
    "C134_setters",
    "C134_changes",
    "C134_new_data_refuted",
    "C134_wrong_cell_refuted"
   ],
   "note": "Proved: C134_fc3, C134_fc2_beside, C134_fc2_stays, C134_fc2, C134_no_forces, C134_exception, C134_both, C134_session, C134_changes. False: produce_fc3 after a new dataset is set keeps the fc2 of the old one (C134_new_data_refuted); with a phonon supercell matrix and no dataset for it, the dataset of the supercell is used with the phonon supercell (C134_wrong_cell_refuted). Changes in place of arrays given by the user are not modelled."
  },
  {
   "property": "C135",
   "status": "partial",
   "theorems": [
    "C135_setter",
    "C135_setter_refuted",
    "C135_values",
    "C135_widths_refuted",
    "C135_files",
    "C135_none_refuted",
    "C135_at_bands_refuted",
    "C135_temperatures_refuted"
   ],
   "note": "Proved when None is at most the first of the sigmas and files are written at sampled frequency points. False otherwise: values that are neither float nor int are dropped from sigmas, and with nothing left the run raises (C135_setter_refuted); None after the first element adds the width 0.05 (C135_widths_refuted) and raises when files are written (C135_none_refuted); at the frequencies of bands writing raises and leaves an empty file (C135_at_bands_refuted); the imaginary part without temperatures raises (C135_temperatures_refuted). Text of names and hdf5 files are not in this model."
  },
  {
   "property": "C136",
   "status": "partial",
   "theorems": [
    "C136_names",
    "C136_mesh_refuted",
    "C136_round_trip",
    "C136_missing",
    "C136_other",
    "C136_addresses_refuted",
    "C136_both_refuted",
    "C136_copy_refuted"
   ],
   "note": "Proved: names never clash (C136_names), phonons are read back after any runs with other names (C136_round_trip), a missing file or one of another mesh or size ends the run (C136_missing, C136_other). Refuted: with both options the arrays are written before the file is read, so with one name the file is replaced by arrays that are not solved and the run goes on with these (C136_both_refuted), and with two names the new file holds arrays that are not solved (C136_copy_refuted); meshes such as 1 11 1 and 11 1 1 share a file (C136_mesh_refuted); a file of another grid with as many points is accepted if one coordinate agrees (C136_addresses_refuted). Runs of several processes at once and the hdf5 library are not modelled."
  },
  {
   "property": "C137",
   "status": "partial",
   "theorems": [
    "C137_gamma",
    "C137_table",
    "C137_table_refuted",
    "C137_new_matrix_refuted",
    "C137_no_matrix",
    "C137_stay",
    "C137_set_sigma_refuted"
   ],
   "note": "Proved: gamma and grid_points after any calls with one dynamical matrix (C137_gamma), printed rows with all bands (C137_table), exceptions without a matrix (C137_no_matrix), rates stay (C137_stay). Refuted: with chosen bands the printed frequencies are those of the first bands (C137_table_refuted); a dynamical matrix given after a run is not used because the phonons are kept (C137_new_matrix_refuted); set_sigma always raises (C137_set_sigma_refuted); an exception leaves grid_points of another run than gamma (C137_no_matrix). Only lang=C."
  }
 ]
}