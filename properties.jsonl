{"id": "C01", "title": "Grid index and grid address are in bijection", "statement": "Converting an integer grid address to a grid-point index and the index back gives the address reduced modulo the mesh; converting an index in range to an address and back gives the same index; indices are always in 0..N-1 with N the product of the mesh numbers; two addresses get the same index exactly when they differ by whole mesh periods (including negative addresses).", "quantifier": "every positive mesh triple D, every integer address (negative and far outside the cell included), every index in range", "why_tests_cant": "unit tests enumerate a handful of small meshes; sizes and addresses are unbounded and negative addresses go through C remainder, whose sign behaviour must be right for every value", "anchors": ["c/grgrid.c: grg_get_grid_index, get_grid_index_from_address, get_grid_address_from_index, reduce_grid_address", "c/lagrid.c: lagmat_modulo_l", "phono3py/phonon/grid.py: BZGrid.get_indices_from_addresses"]}
{"id": "C02", "title": "The three grid indexing implementations agree", "statement": "The list of addresses produced for a mesh enumerates, at position i, the address whose index is i; the python helper that converts an address to a grid point and the C routine return the same index for every address.", "quantifier": "every positive mesh and every integer address", "why_tests_cant": "agreement of two implementations on all addresses, including negative ones (python % versus C %), is not reachable by sampling", "anchors": ["c/grgrid.c: get_all_grid_addresses", "phono3py/phonon/grid.py: get_grid_point_from_address_py, get_grid_point_from_address"]}
{"id": "C03", "title": "Half-shifted (double) grid addresses round trip", "statement": "For a mesh with half-step shifts, mapping an address to its doubled representation and back returns the address, the doubled representation determines the grid index, and every shift in {0,1} per axis is supported, including addresses that are negative.", "quantifier": "every mesh, every shift in {0,1}^3, every integer address", "why_tests_cant": "division by two truncates toward zero in C; correctness on negative odd values depends on the shift being subtracted first, for unboundedly many addresses", "anchors": ["c/grgrid.c: get_grid_address, get_double_grid_address, get_double_grid_index"]}
{"id": "C04", "title": "A commensurate rotation permutes the grid", "statement": "Rotating grid points by a rotation matrix that is compatible with the mesh maps grid points to grid points independently of the chosen representative address, maps the identity to the identity, sends products of rotations to compositions, and is a permutation of the grid when the rotation is invertible over the integers.", "quantifier": "every mesh, every shift satisfying the shift symmetry, every pair of compatible integer rotation matrices, every grid point", "why_tests_cant": "it is an algebraic law over all meshes and all matrices, not over the point groups of the test crystals", "anchors": ["c/grgrid.c: rotate_grid_index, grg_rotate_grid_index", "phono3py/phonon/grid.py: get_grid_points_by_rotations"]}
{"id": "C05", "title": "Irreducible grid map sends each point to the smallest point of its symmetry star", "statement": "For a point group acting on the grid, the irreducible map value of a grid point is the smallest index among all its symmetry images; hence two points get the same value exactly when some operation relates them, the map is idempotent, and it does not depend on the order in which the operations are listed.", "quantifier": "every mesh, every finite list of compatible rotations closed under the group operations, every grid point", "why_tests_cant": "the routine is a sequential table-filling loop that reuses previously filled entries; its correctness is an induction over the whole table for an arbitrary group", "anchors": ["c/grgrid.c: get_ir_grid_map", "c/recgrid.c: recgrid_get_ir_grid_map", "phono3py/phonon/grid.py: get_ir_grid_points, _get_ir_grid_map"]}
{"id": "C06", "title": "Irreducible weights count stars and sum to the number of grid points", "statement": "The irreducible grid points are exactly the fixed points of the map, the number of them equals the reported count and the number of stars; each weight is the number of grid points in the star and the weights sum to the product of the mesh numbers; weight times the number of operations leaving the point invariant equals the order of the group, so the k-star order check never fires.", "quantifier": "every mesh, every finite group of compatible rotations", "why_tests_cant": "counting identity (orbit-stabiliser) over all groups and meshes", "anchors": ["phono3py/phonon/grid.py: get_ir_grid_points", "c/recgrid.c: recgrid_get_ir_grid_map", "phono3py/conductivity/base.py: _get_multiplicity_at_q, _get_kstar_order"]}
{"id": "C07", "title": "Reciprocal point group construction", "statement": "When the construction succeeds the returned operations contain every (transposed if requested) input rotation and nothing but those and, with time reversal and no inversion present, their negatives; if the input is a group the output is a duplicate-free group and with time reversal it is closed under negation; without time reversal the output is duplicate-free for every input; it never writes more than 48 operations and reports failure exactly when more than 48 (or 24 before adding inversion) distinct ones would be needed.", "quantifier": "every list of integer 3x3 matrices (with repetitions), both flags", "why_tests_cant": "inputs are arbitrary lists with duplicates; capacity and closure are universally quantified", "anchors": ["c/grgrid.c: grg_get_reciprocal_point_group"]}
{"id": "C08", "title": "Smith normal form decomposition is exact and unimodular", "statement": "For every integer 3x3 matrix with non-zero determinant for which the decomposition reports success, D = P A Q holds exactly, P and Q have determinant +1 or -1 (so every grid address transformation is invertible over the integers), D is diagonal with positive entries whose product is |det A|; for zero determinant it reports failure.", "quantifier": "every integer 3x3 matrix", "why_tests_cant": "iterated elementary operations with a data-dependent number of steps; an identity over all matrices", "anchors": ["c/snf3x3.c: snf3x3, first, second, finalize, extended_gcd", "c/grgrid.c: grg_get_snf3x3"]}
{"id": "C09", "title": "Smith normal form diagonal is a divisibility chain", "statement": "The diagonal numbers D1, D2, D3 of the generated regular grid satisfy D1 | D2 | D3 as the name Smith normal form promises.", "quantifier": "every non-singular integer 3x3 matrix", "why_tests_cant": "needs a matrix shape that the tests (symmetric crystal grids) never exercise", "anchors": ["c/snf3x3.c: snf3x3, first, second, finalize", "phono3py/phonon/grid.py: GridMatrix.D_diag"]}
{"id": "C10", "title": "Rotations are transformed to the grid basis without loss", "statement": "When transforming rotations to the Smith-normal-form grid succeeds, each returned integer matrix is exactly D Q^-1 R Q D^-1, so products of rotations become products of transformed rotations and the transformed rotations are compatible with the mesh; when some transformed matrix is not integral the routine fails rather than returning a rounded one.", "quantifier": "every rotation list, every unimodular Q and positive diagonal D", "why_tests_cant": "must hold for every generalized regular grid", "anchors": ["c/grgrid.c: grg_transform_rotations", "phono3py/phonon/grid.py: BZGrid._set_rotations"]}
{"id": "C11", "title": "Brillouin-zone relocation keeps every grid point and picks shortest representatives", "statement": "Relocating grid points to the Brillouin zone keeps at least one representative for every regular grid point, each representative is congruent to its grid point modulo the mesh, representatives of one grid point are pairwise distinct, every neighbour among the 125 searched that is less than the tolerance longer than the shortest one is kept, and none that is twice the tolerance or more longer; the index tables (first representative first, extra surface points after, or contiguous blocks in the dense layout) describe exactly this assignment.", "quantifier": "every mesh, every shift, every lattice metric, both storage layouts", "why_tests_cant": "quantifies over all lattices and meshes; storage layouts involve running offsets over the entire grid", "anchors": ["c/bzgrid.c: bzg_get_bz_grid_addresses, get_bz_grid_addresses_type1, get_bz_grid_addresses_type2, set_bz_address, get_bz_distances", "phono3py/phonon/grid.py: _relocate_BZ_grid_address"]}
{"id": "C12", "title": "The BZ address buffer allocated by python is large enough", "statement": "The number of BZ grid addresses written by the relocation never exceeds the number of rows allocated for them.", "quantifier": "every mesh and every lattice metric", "why_tests_cant": "overflow depends on extreme lattices that no test uses", "anchors": ["phono3py/phonon/grid.py: _relocate_BZ_grid_address", "c/bzgrid.c: get_bz_grid_addresses_type1, get_bz_grid_addresses_type2"]}
{"id": "C13", "title": "Rotated BZ grid point is the rotated point", "statement": "Rotating a BZ grid point by a symmetry operation returns the index of a BZ grid point congruent to the rotated address; when the rotated address itself is stored, exactly that point is returned (surface points are distinguished).", "quantifier": "every BZ grid in both layouts, every compatible rotation, every BZ grid point", "why_tests_cant": "search over stored representatives for arbitrary grids", "anchors": ["c/bzgrid.c: bzg_rotate_grid_index", "phono3py/phonon/grid.py: get_grid_points_by_rotations"]}
{"id": "C14", "title": "Triplet symmetry reduction is a sound partition", "statement": "At a fixed first grid point, the triplet map sends every second grid point to the smallest equivalent one under the operations fixing the first point and (optionally) the exchange of the second and third point; it is idempotent, two points share a representative exactly when related, the number of irreducible triplets equals the number of distinct values, and the triplet weights sum to the number of grid points.", "quantifier": "every mesh, group, grid point, with and without exchange symmetry and mesh symmetry", "why_tests_cant": "two nested table-filling loops over an arbitrary group; relation generated by rotations and exchange", "anchors": ["c/triplet_grid.c: tpk_get_ir_triplets_at_q, get_ir_triplets_at_q, get_ir_triplets_at_q_perm_q1q2, get_ir_triplets_at_q_noperm", "phono3py/phonon3/triplets.py: get_triplets_at_q"]}
{"id": "C15", "title": "Triplets conserve crystal momentum", "statement": "Every triplet of BZ grid points returned for a grid point starts with that point (or a translationally equivalent BZ point) and its three addresses sum to zero modulo the mesh (momentum conservation up to a reciprocal lattice vector); there is exactly one triplet per irreducible second point and the accompanying weights are those of the triplet map.", "quantifier": "every BZ grid (both layouts), every grid point", "why_tests_cant": "must hold for every grid and every triplet", "anchors": ["c/triplet_grid.c: tpk_get_BZ_triplets_at_q, get_BZ_triplets_at_q_type1, get_BZ_triplets_at_q_type2", "phono3py/phonon3/triplets.py: get_triplets_at_q, _get_BZ_triplets_at_q"]}
{"id": "C16", "title": "BZ triplets use the smallest umklapp vector", "statement": "Among the equivalent BZ representatives of the three points, the returned triplet is one whose reciprocal-vector sum G is shortest, and G=0 whenever some choice of representatives gives G=0.", "quantifier": "every lattice, mesh and BZ grid", "why_tests_cant": "the choice is only ambiguous at BZ-surface points of general lattices", "anchors": ["c/triplet_grid.c: get_LQD_inv, get_squared_distance, get_BZ_triplets_at_q_type1, get_BZ_triplets_at_q_type2", "c/phono3py.c: ph3py_get_BZ_triplets_at_q"]}
{"id": "C17", "title": "Normal and umklapp parts add up to the total", "statement": "Each triplet is classified as exactly one of normal or umklapp (normal iff its addresses sum to zero), and the normal and umklapp imaginary self-energies add up to the total imaginary self-energy computed from the same triplets.", "quantifier": "every list of triplets, addresses, weights and triplet-resolved values", "why_tests_cant": "sum over arbitrarily many triplets", "anchors": ["c/triplet.c: tpl_is_N", "c/imag_self_energy_with_g.c: ise_get_detailed_imag_self_energy_at_bands_with_g, ise_get_imag_self_energy_at_bands_with_g", "phono3py/phonon3/imag_self_energy.py: get_imag_self_energy_N_and_U"]}
{"id": "C18", "title": "Little group of a grid point", "statement": "The operations used at a grid point are exactly those listed operations that leave the grid point invariant modulo the mesh; they are pairwise distinct and form a group when the input does.", "quantifier": "every list of operations, mesh and grid point", "why_tests_cant": "universal over groups and meshes", "anchors": ["c/triplet_grid.c: get_reciprocal_point_group_with_q"]}
{"id": "C19", "title": "Tetrahedron neighbours of a grid point are the translated points", "statement": "For each of the 24x4 tetrahedron vertices, the neighbouring BZ grid point reported for a grid point is congruent to the address plus the relative vertex address, and is the exact address when that one is stored in the BZ grid.", "quantifier": "every BZ grid in both layouts, every grid point, every relative address", "why_tests_cant": "arbitrary BZ grids", "anchors": ["c/triplet_iw.c: tpi_get_neighboring_grid_points, get_neighboring_grid_points_type1, get_neighboring_grid_points_type2"]}
{"id": "C20", "title": "Vertex sorting in the tetrahedron method is a correct permutation sort", "statement": "For any four vertex frequencies the sorted values are ascending, are a permutation of the input, and the returned index is a position at which the first input value is found.", "quantifier": "every quadruple of numbers, ties included", "why_tests_cant": "hand-written comparison network; ties and all 24 orders with arbitrary values", "anchors": ["c/tetrahedron_method.c: sort_omegas"]}
{"id": "C21", "title": "Tetrahedron weights form a partition of unity", "statement": "Inside each energy region the four vertex weights of a tetrahedron sum to one, so that the contributions of the vertices add up to the tetrahedron's integrated (or differential) density of states; every weight is non-negative and the integrated weight lies between 0 and 1, is 0 below all vertices and 1 above all of them, and agrees at region boundaries.", "quantifier": "all vertex frequencies and all energies not equal to a vertex frequency", "why_tests_cant": "rational functions with removable singularities; needs algebra over all real values", "anchors": ["c/tetrahedron_method.c: get_integration_weight, thm_get_integration_weight, _n, _g, _J, _I"]}
{"id": "C22", "title": "Skipping outside-range tetrahedra is sound", "statement": "Whenever the shortcut declares that an energy is outside the range of all tetrahedra around a point the full tetrahedron weight is zero, and whenever a triplet/band combination is flagged as zero its integration weight is zero, so skipped terms never contribute.", "quantifier": "all frequencies, all energies, tetrahedron and smearing with cutoff", "why_tests_cant": "a false positive silently drops physics only for special values", "anchors": ["c/tetrahedron_method.c: thm_in_tetrahedra", "c/triplet_iw.c: tpi_get_integration_weight, tpi_get_integration_weight_with_sigma, set_g", "phono3py/phonon3/triplets.py: get_triplets_integration_weights"]}
{"id": "C23", "title": "Integrated tetrahedron weight is monotone in energy", "statement": "The number of states below an energy, as given by the tetrahedron method, does not decrease when the energy is raised; at an energy equal to a vertex frequency it takes the common limit value.", "quantifier": "all vertex frequencies and all pairs of energies, including energies equal to a vertex frequency", "why_tests_cant": "equality of an energy with a vertex frequency is measure-zero for random test data but happens in practice (kaccum sampling at the maximum frequency)", "anchors": ["c/tetrahedron_method.c: get_integration_weight"]}
{"id": "C24", "title": "Relative tetrahedron vertices tile the neighbourhood", "statement": "For each main diagonal choice, the 24 tetrahedra all have the grid point itself as their first vertex, use only neighbouring points in {-1,0,1}^3, are pairwise different, and have equal unit volume (determinant +1 or -1 of the edge vectors), and they are closed under inversion; the main diagonal chosen is a shortest one.", "quantifier": "all four diagonals, all 24 tetrahedra, all lattices for the diagonal choice", "why_tests_cant": "table of 4*24*4 addresses; a single wrong entry is invisible to coarse numerical tests", "anchors": ["c/tetrahedron_method.c: thm_get_relative_grid_address, get_main_diagonal, db_relative_grid_address"]}
{"id": "C25", "title": "Permutation symmetrization of fc3 is a projection, under any thread schedule", "statement": "After symmetrizing full fc3, exchanging any two (atom, direction) pairs leaves every element unchanged; symmetrizing again changes nothing; already symmetric input is unchanged; every element equals the average of the six permuted input elements; the result is the same for every interleaving of the parallel loop iterations.", "quantifier": "every number of atoms, every fc3 array, every thread interleaving", "why_tests_cant": "in-place update in a parallel loop: correctness depends on disjointness for all sizes and all schedules", "anchors": ["c/fc3.c: fc3_set_permutation_symmetry_fc3, set_permutation_symmetry_fc3_elem", "phono3py/phonon3/fc3.py: set_permutation_symmetry_fc3"]}
{"id": "C26", "title": "Permutation symmetrization of compact fc3 agrees with the full one", "statement": "Symmetrizing the compact (primitive-first) fc3 gives the restriction of symmetrizing the full fc3 obtained by lattice translations: each compact element becomes the average of the six translated permuted elements.", "quantifier": "every consistent supercell permutation table, every compact array", "why_tests_cant": "index bookkeeping with a done-flag over arbitrary supercells", "anchors": ["c/fc3.c: fc3_set_permutation_symmetry_compact_fc3, set_permutation_symmetry_compact_fc3"]}
{"id": "C27", "title": "Translational invariance correction makes the force-constant sums vanish", "statement": "After the correction along the chosen atom index, summing fc3 over that atom index gives zero for all other indices; applying corrections along all three indices gives zero sums along all three; applying it twice changes nothing.", "quantifier": "every number of atoms and every array", "why_tests_cant": "an algebraic identity over arrays of every size; later corrections must not break earlier ones", "anchors": ["phono3py/phonon3/fc3.py: set_translational_invariance_fc3, set_translational_invariance_fc3_per_index, set_translational_invariance_compact_fc3"]}
{"id": "C28", "title": "Transposition of compact fc3 is a permutation of its entries", "statement": "Transposing the compact fc3 about the first two (or first and last, or last two) atom indices is an involution and moves each element to the translated transposed position without losing or duplicating any.", "quantifier": "every consistent supercell permutation table and compact array", "why_tests_cant": "done-flag in-place cycle logic over arbitrary supercells", "anchors": ["c/fc3.c: fc3_transpose_compact_fc3, transpose_compact_fc3_type01, transpose_compact_fc3_type2"]}
{"id": "C29", "title": "Distribution of fc3 by symmetry", "statement": "Distributing fc3 from calculated first atoms fills every first atom with the rotated tensor of its symmetry-equivalent calculated atom; calculated blocks are unchanged.", "quantifier": "every number of atoms, every symmetry mapping, every array", "why_tests_cant": "loop over all atoms with in-place updates", "anchors": ["phono3py/phonon3/fc3.py: distribute_fc3", "c/fc3.c: fc3_distribute_fc3, tensor3_rotation"]}
{"id": "C30", "title": "Cut-off zeroes exactly the elements with a distant pair", "statement": "Applying a cutoff distance zeroes exactly the fc3 elements in which some two of the three atoms are farther apart than the cutoff and leaves all other elements untouched; symmetric fc3 stays symmetric.", "quantifier": "every supercell size, distance matrix and cutoff", "why_tests_cant": "all index triples of arbitrary supercells", "anchors": ["phono3py/phonon3/fc3.py: cutoff_fc3_by_zero"]}
{"id": "C31", "title": "Collision-matrix symmetrization is exact and schedule independent", "statement": "After symmetrization the collision matrix equals its transpose, diagonal unchanged, each off-diagonal element is the mean of the two input elements, for every sigma and temperature; symmetric input is unchanged; the result does not depend on the thread schedule.", "quantifier": "every size, every number of sigmas/temperatures, every interleaving", "why_tests_cant": "parallel in-place update of pairs", "anchors": ["c/phono3py.c: ph3py_symmetrize_collision_matrix", "phono3py/conductivity/direct_solution.py: _symmetrize_collision_matrix"]}
{"id": "C32", "title": "Expansion of the reducible collision matrix by symmetry", "statement": "Expanding the collision matrix from irreducible rows sets, for every grid point in a star, the row to the symmetry image of the irreducible row averaged over the operations; no row of a different star is touched; the parallel loop over irreducible points gives the same result for every schedule.", "quantifier": "every group action on the grid, every matrix, every interleaving", "why_tests_cant": "disjointness of stars under arbitrary group actions; parallel accumulation", "anchors": ["c/phono3py.c: ph3py_expand_collision_matrix", "phono3py/conductivity/direct_solution.py: _expand_reducible_collisions"]}
{"id": "C33", "title": "Grid-point to triplet lookup used by the collision matrix is consistent", "statement": "For each grid point, the lookup yields the position of the irreducible triplet representing it, always defined, and the flag that second and third points are exchanged is set exactly when the rotation-only representative differs from the triplet representative; the python and C implementations agree. The collision matrices computed from irreducible triplets with this lookup equal, element by element, those computed directly from every grid point, for every schedule.", "quantifier": "every pair of maps satisfying the triplet-map properties", "why_tests_cant": "table lookup for arbitrary maps", "anchors": ["c/collision_matrix.c: create_gp2tp_map, get_inv_sinh", "phono3py/phonon3/collision_matrix.py: _get_gp2tp_map"]}
{"id": "C34", "title": "Averaging over degenerate bands", "statement": "Averaging a band-resolved quantity over sets of degenerate bands keeps the total over each set (hence over all bands), makes it constant on each set, leaves bands outside any set of size > 1 unchanged and is idempotent.", "quantifier": "every partition of the bands into sets and every value array", "why_tests_cant": "arbitrary partitions", "anchors": ["phono3py/phonon3/imag_self_energy.py: average_by_degeneracy", "phono3py/conductivity/direct_solution.py: _average_collision_matrix_by_degeneracy"]}
{"id": "C35", "title": "Frequency-point batches cover every point once", "statement": "Splitting frequency points into batches yields consecutive non-empty batches whose concatenation is 0..n-1, each of size at most the requested number up to rounding, so that each frequency point is computed exactly once.", "quantifier": "every number of points and every positive batch size", "why_tests_cant": "boundary (exact multiple, remainder, empty) cases for all sizes", "anchors": ["phono3py/phonon3/imag_self_energy.py: get_freq_points_batches"]}
{"id": "C36", "title": "Mass variance is non-negative", "statement": "The mass-variance parameter of an element is non-negative for non-negative isotope fractions, and zero when only one isotope mass is present.", "quantifier": "every list of isotope masses and fractions", "why_tests_cant": "all isotope tables, including user given", "anchors": ["phono3py/other/isotope.py: get_mass_variances"]}
{"id": "C37", "title": "Forces, displacements and supercells stay in the same order", "statement": "Setting forces for a displacement dataset and reading them back returns the same forces; the i-th force set is attached to the displacement (pair) that defines the i-th displaced supercell; pairs excluded by the cutoff keep their position with no supercell, and their forces are not given to the force-constant solvers. Too few force sets are refused.", "quantifier": "every type-1 dataset (any number of first and second atoms and inclusion flags) and every type-2 dataset, every force array of matching length", "why_tests_cant": "two independent traversals with counters over arbitrary nested datasets", "anchors": ["phono3py/api_phono3py.py: forces, _set_forces_energies, _get_forces_energies, _build_supercells_with_displacements, supercells_with_displacements"]}
{"id": "C38", "title": "Displacement array describes the displaced supercells", "statement": "The array of displacements returned by the API gives, for each displaced supercell, its atomic displacements from the perfect supercell.", "quantifier": "every dataset", "why_tests_cant": "requires comparing two traversals on pair displacements", "anchors": ["phono3py/api_phono3py.py: displacements, _build_supercells_with_displacements", "phono3py/phonon3/dataset.py: get_displacements_and_forces_fc3"]}
{"id": "C39", "title": "Setting a dataset never leaves stale supercells", "statement": "After any sequence of dataset, displacement and force assignments, the displaced supercells and displacements returned by the API are those of the current dataset.", "quantifier": "every sequence of API calls, including calls that raise", "why_tests_cant": "history-dependent caching; all call sequences", "anchors": ["phono3py/api_phono3py.py: dataset, displacements, supercells_with_displacements, generate_displacements, mesh_numbers"]}
{"id": "C40", "title": "FORCES_FC3 / FORCES_FC2 files round trip", "statement": "Writing forces for a dataset to FORCES_FC3 (FORCES_FC2) and parsing the file back with the same dataset attaches to each displacement (pair) the forces that were written, zero for excluded pairs; a file that is too short is rejected.", "quantifier": "every dataset and forces", "why_tests_cant": "nested traversal with two counters; all inclusion patterns", "anchors": ["phono3py/file_IO.py: write_FORCES_FC3, parse_FORCES_FC3, write_FORCES_FC2, parse_FORCES_FC2, _parse_force_lines"]}
{"id": "C41", "title": "phono3py.yaml keeps the displacement dataset", "statement": "Writing the type-1 displacement dataset to phono3py yaml and reading it back gives the same first atoms, second atoms, displacements, order, ids, inclusion flags and forces.", "quantifier": "every type-1 dataset", "why_tests_cant": "grouping by atom number reorders entries; all datasets", "anchors": ["phono3py/interface/phono3py_yaml.py: displacements_yaml_lines_type1, _second_displacements_yaml_lines, Phono3pyYamlLoader._parse_fc3_dataset_type1"]}
{"id": "C42", "title": "ph-ph interaction file round trip", "statement": "Writing interaction strengths compressed by the zero-position bitmask and reading them back gives the original array with zeros at the flagged positions, for lengths that are not multiples of eight as well.", "quantifier": "every array, every mask, every shape", "why_tests_cant": "bit packing with remainder bytes for every length", "anchors": ["phono3py/file_IO.py: write_pp_to_hdf5, read_pp_from_hdf5"]}
{"id": "C43", "title": "Result files of different calculations do not collide", "statement": "Two calculations with different mesh, grid point, band, sigma, cutoff or temperature write to different files.", "quantifier": "every pair of parameter tuples", "why_tests_cant": "needs two parameter sets with clashing decimal strings", "anchors": ["phono3py/file_IO.py: _get_filename_suffix, _del_zeros"]}
{"id": "C44", "title": "Phonons at Gamma follow the current NAC direction", "statement": "After selecting a grid point, phonons at Gamma used by the interaction (joint DOS, isotope) are those for the q-direction currently in force: with the direction at Gamma itself, without it elsewhere, whatever was computed before.", "quantifier": "every history of set direction / set grid point / run calls", "why_tests_cant": "state machine with caches; all call sequences", "anchors": ["phono3py/phonon3/interaction.py: set_grid_point, run_phonon_solver_at_gamma, nac_q_direction", "phono3py/phonon3/joint_dos.py: set_grid_point, run_phonon_solver_at_gamma", "phono3py/other/isotope.py: set_nac_q_direction"]}
{"id": "C45", "title": "Phonons are computed once and do not depend on request order", "statement": "Running the phonon solver on any sequence of grid-point lists leaves each requested grid point with the value of the solver for that point, flags exactly the requested points as done, never recomputes a done point and never changes other points.", "quantifier": "every sequence of requests with repetitions and overlaps, every thread schedule", "why_tests_cant": "history and schedule quantification", "anchors": ["c/phonon.c: phn_get_phonons_at_gridpoints, collect_undone_grid_points", "phono3py/phonon3/interaction.py: run_phonon_solver"]}
{"id": "C46", "title": "Restart from per-grid-point files reproduces the run", "statement": "If a conductivity run is interrupted after any grid point and the remaining grid points are computed in other runs, reading the per-grid-point (or per-band) files gives exactly the linewidths of an uninterrupted run; if a needed file is missing, reading fails and the conductivity object keeps its linewidths unchanged.", "quantifier": "every crash point, every set of existing files, every number of grid points, bands, sigmas", "why_tests_cant": "crash points and file subsets are universally quantified", "anchors": ["phono3py/conductivity/utils.py: ConductivityRTAWriter.write_gamma, set_gamma_from_file", "phono3py/file_IO.py: read_gamma_from_hdf5"]}
{"id": "C47", "title": "Missing collision files are reported, not crashed on", "statement": "When a collision file is missing at any grid point or band, reading the collision matrix returns a failure value as documented.", "quantifier": "every set of existing files", "why_tests_cant": "depends on which subset of files exists", "anchors": ["phono3py/conductivity/utils.py: set_collision_from_file, _collect_collision_gp, _collect_collision_band", "phono3py/file_IO.py: read_collision_from_hdf5"]}
{"id": "C48", "title": "Sparse enumeration of non-zero integration weights loses nothing", "statement": "The list of band combinations used for a triplet contains each combination with non-zero flag exactly once, so the imaginary self-energy from the sparse list equals the dense sum over all band pairs.", "quantifier": "every number of bands, band subset and flag array", "why_tests_cant": "list of data-dependent length; all sizes", "anchors": ["c/imag_self_energy_with_g.c: ise_set_g_pos, set_g_pos_frequency_point, imag_self_energy_at_triplet"]}
{"id": "C49", "title": "Interaction strength does not depend on eigenvector phases", "statement": "The squared three-phonon interaction strength is non-negative and unchanged when each of the three eigenvectors is multiplied by a phase factor.", "quantifier": "every number of bands, every complex fc3 in reciprocal space, all eigenvectors and all phases", "why_tests_cant": "continuous family of gauges", "anchors": ["c/reciprocal_to_normal.c: get_fc3_sum, reciprocal_to_normal_squared"]}
{"id": "C50", "title": "Symmetrized interaction is the average over q-point exchanges", "statement": "With q-exchange symmetrization, the interaction strength at a triplet is the average over the six orders of the three q-points with band indices exchanged accordingly, hence invariant under exchanging q-points together with their bands.", "quantifier": "every number of bands and every strength array", "why_tests_cant": "index permutation identities for all sizes", "anchors": ["c/interaction.c: real_to_normal_sym_q"]}
{"id": "C51", "title": "Displacement pairs are identified uniquely", "statement": "Generated pair displacements get consecutive unique ids: single displacements first, then pairs in order; ids agree with the order of the displaced supercells; duplicated supercells reported are exactly pairs that describe the same displacements.", "quantifier": "every dataset", "why_tests_cant": "counter threading over nested loops and all datasets", "anchors": ["phono3py/phonon3/displacement_fc3.py: direction_to_displacement, get_third_order_displacements, _find_duplicates"]}
{"id": "C52", "title": "Second-atom reduction covers all pairs", "statement": "The reduced list of second atoms under the site symmetry of the first atom contains at least one representative of each symmetry-equivalent set of second atoms.", "quantifier": "every finite site-symmetry action", "why_tests_cant": "arbitrary actions", "anchors": ["phono3py/phonon3/displacement_fc3.py: get_least_orbits, _get_orbits"]}
{"id": "C53", "title": "Dynamical matrices are Hermitian", "statement": "The dynamical matrix returned for any q is exactly Hermitian.", "quantifier": "every force constants, q and number of atoms", "why_tests_cant": "all inputs", "anchors": ["c/dynmat.c: dym_get_dynamical_matrix_at_q, make_Hermitian"]}
{"id": "C54", "title": "All joint-DOS temperatures are written", "statement": "Writing joint density of states for several temperatures stores the results for all temperatures.", "quantifier": "every non-empty list of temperatures", "why_tests_cant": "early return inside a loop shows only with more than one temperature", "anchors": ["phono3py/file_IO.py: write_joint_dos"]}
{"id": "C55", "title": "Frequency-band grouping in imaginary self-energy output", "statement": "Each group of band indices written to a file receives the average over precisely its own bands of the computed values.", "quantifier": "every list of band-index groups", "why_tests_cant": "offset bookkeeping for arbitrary groups", "anchors": ["phono3py/phonon3/imag_self_energy.py: write_imag_self_energy"]}
{"id": "C56", "title": "Phonon data from another mesh are rejected", "statement": "Supplying phonon frequencies and eigenvectors whose grid addresses differ from those of the interaction's grid is rejected.", "quantifier": "every pair of address arrays", "why_tests_cant": "any single differing entry", "anchors": ["phono3py/phonon3/interaction.py: set_phonon_data"]}
{"id": "C57", "title": "Python and C rotate grid points alike", "statement": "The python helper that rotates a grid point through its address gives the same grid point as the C routine, also on grids with half-step shifts.", "quantifier": "every mesh, shift satisfying the shift symmetry, compatible rotation and address", "why_tests_cant": "agreement of two implementations over all shifted grids", "anchors": ["phono3py/phonon/grid.py: _get_grid_points_by_rotations, get_grid_points_by_rotations", "c/grgrid.c: rotate_grid_index"]}
{"id": "C58", "title": "symmetrize_fc3r gives symmetric and translation-invariant force constants together", "statement": "produce_fc3 with symmetrize_fc3r (translational correction followed by index-permutation averaging) returns fc3 that is symmetric under exchange of any two (atom, direction) pairs and whose sums over any atom index vanish, in the full and in the compact layout.", "quantifier": "every supercell with consistent translation tables and every array", "why_tests_cant": "the second step could destroy what the first established; supercells with an even number of cells behave differently from odd ones", "anchors": ["phono3py/api_phono3py.py: Phono3py.produce_fc3", "phono3py/phonon3/fc3.py: set_translational_invariance_compact_fc3, set_permutation_symmetry_compact_fc3", "c/fc3.c: transpose_compact_fc3_type01"]}
{"id": "C59", "title": "Symmetry-enforcing methods act correctly on compact fc3", "statement": "Phono3py.set_permutation_symmetry and Phono3py.set_translational_invariance enforce the symmetry they are named after on the stored fc3 whether it is full or compact, and leave force constants that already have it unchanged.", "quantifier": "every supercell and every stored fc3 layout", "why_tests_cant": "the layout is never checked; only compact arrays expose the difference", "anchors": ["phono3py/api_phono3py.py: Phono3py.set_permutation_symmetry, Phono3py.set_translational_invariance", "c/_phono3py.cpp: py_get_permutation_symmetry_fc3"]}
{"id": "C60", "title": "Force constants of the displaced atom are recovered exactly from linear data", "statement": "If the change of fc2 for each displacement is exactly the contraction of a third-order tensor with that displacement, the tensor has the site symmetry of the displaced atom, and the rotated displacements have a left inverse, then the computed fc3 row equals that tensor.", "quantifier": "every number of atoms, displacements and site symmetries", "why_tests_cant": "an identity over arbitrary groups and displacement sets involving index conventions of rotations and atom maps", "anchors": ["c/fc3.c: fc3_rotate_delta_fc2, rotate_delta_fc2s, tensor2_rotation", "phono3py/phonon3/fc3.py: _solve_fc3"]}
{"id": "C61", "title": "Python and C give the same linewidths", "statement": "ImagSelfEnergy with lang='Python' and lang='C' give the same imaginary part of the self-energy at band frequencies at every temperature including 0 K.", "quantifier": "every set of triplets, frequencies, cutoff, integration weights and interaction strengths", "why_tests_cant": "two implementations with different treatment of modes below the cutoff", "anchors": ["phono3py/phonon3/imag_self_energy.py: ImagSelfEnergy._ise_thm_with_band_indices, ImagSelfEnergy._ise_thm_with_band_indices_0K", "c/imag_self_energy_with_g.c: ise_get_imag_self_energy_with_g"]}
{"id": "C62", "title": "Scattering event classes add up", "statement": "The imaginary part computed with scattering_event_class 1 plus that computed with class 2 equals the one computed without a class.", "quantifier": "every set of triplets, every temperature, band frequencies and frequency points", "why_tests_cant": "sum rule over arbitrary data and array layout", "anchors": ["phono3py/phonon3/imag_self_energy.py: ImagSelfEnergy.set_integration_weights", "c/imag_self_energy_with_g.c: ise_imag_self_energy_at_triplet"]}
{"id": "C63", "title": "Expansion of mode quantities over the stars", "statement": "Expanding heat capacities, linewidths and group velocities from irreducible grid points to all grid points gives every point of a star the scalars of its irreducible point, and group velocities that rotate with the grid points: the velocity at the image of a point is the rotated velocity.", "quantifier": "every finite group acting on the grid, every choice of one representative per star, every value array that is zero off the irreducible points", "why_tests_cant": "arbitrary group actions with non-trivial stabilizers", "anchors": ["phono3py/conductivity/direct_solution.py: _expand_local_values"]}
{"id": "C64", "title": "Star weights in the collision matrix", "statement": "The number of arms of the star of an irreducible grid point times the order of its stabilizer is the number of rotations, every arm is reached by the same number of rotations, so the warning about broken symmetry of the grid is never raised for rotations forming a group.", "quantifier": "every finite group acting on a grid, every irreducible grid point", "why_tests_cant": "orbit-stabilizer over arbitrary groups", "anchors": ["phono3py/conductivity/direct_solution.py: _get_weights"]}
{"id": "C65", "title": "Detailed linewidths are stored per sigma and temperature", "statement": "With detailed linewidths requested, the array returned or written for a grid point holds at (sigma, temperature) the contributions of the triplets computed for that sigma and temperature, at band frequencies and at frequency points.", "quantifier": "every number of sigmas, temperatures and frequency points", "why_tests_cant": "indexing of nested loops for arbitrary lengths", "anchors": ["phono3py/phonon3/imag_self_energy.py: _get_imag_self_energy_at_sigma, run_ise_at_frequency_points_batch"]}
{"id": "C66", "title": "NAC direction concerns only the Gamma point", "statement": "With nac_q_direction set, frequencies and eigenvectors at grid points other than Gamma are those of a calculation without it; at Gamma the non-analytical term uses the direction.", "quantifier": "every grid, every direction, every Born charge set, Wang and Gonze-Lee methods", "why_tests_cant": "depends on which points are solved in the call with the direction; the direction is passed through C for all points", "anchors": ["c/phonon.c: get_undone_phonons, get_gonze_undone_phonons, get_charge_sum, needs_nac", "phono3py/phonon3/interaction.py: Interaction.nac_q_direction"]}
{"id": "C67", "title": "Collision data survive writing and reading", "statement": "Linewidths and collision matrix elements read from collision files (one file, files per grid point, files per band) written by any sequence of complete and interrupted calculations are those computed, at every sigma, temperature, grid point and band; when temperatures are selected, they are those of the selected temperatures.", "quantifier": "every sequence of calculations, every set of files, every number of sigmas, temperatures, grid points and bands, every selection", "why_tests_cant": "sequences of runs and file subsets; temperatures share arrays with different axes", "anchors": ["phono3py/conductivity/utils.py: write_collision, set_collision_from_file, _collect_collision_gp, _collect_collision_band, _allocate_collision", "phono3py/file_IO.py: read_collision_from_hdf5"]}
{"id": "C68", "title": "Collision data read from files are used", "statement": "After collision data were read from files, the calculation uses them instead of computing linewidths and collision matrix again.", "quantifier": "every set of collision files", "why_tests_cant": "the data recomputed are usually equal to those read, so results do not show it", "anchors": ["phono3py/conductivity/direct_solution.py: get_thermal_conductivity_LBTE, ConductivityLBTEBase._run_at_grid_point", "phono3py/conductivity/utils.py: set_collision_from_file"]}
{"id": "C69", "title": "Isotope linewidths in collision files belong to the grid point of the file", "statement": "The gamma_isotope dataset of a collision file of a grid point holds the isotope linewidths of that grid point.", "quantifier": "every list of grid points, every number of sigmas and bands", "why_tests_cant": "index bookkeeping for arbitrary grid point lists", "anchors": ["phono3py/conductivity/utils.py: ConductivityLBTEWriter.write_collision", "phono3py/conductivity/base.py: ConductivityBase._get_gamma_isotope_at_sigmas"]}
{"id": "C70", "title": "Linewidths for other temperatures are rejected", "statement": "Reading linewidths from files written for temperatures other than those of the calculation does not succeed.", "quantifier": "every pair of temperature lists", "why_tests_cant": "lengths and values of arbitrary temperature lists", "anchors": ["phono3py/conductivity/utils.py: set_gamma_from_file", "phono3py/file_IO.py: read_gamma_from_hdf5"]}
{"id": "C71", "title": "Length of the NAC direction does not matter", "statement": "Multiplying nac_q_direction by any non-zero number leaves the dynamical matrices of the Wang and of the Gonze-Lee method unchanged.", "quantifier": "every direction, factor, q, Born charges, dielectric tensor", "why_tests_cant": "all real directions", "anchors": ["c/phonon.c: get_charge_sum, get_gonze_phonons", "c/dynmat.c: get_dd, get_dielectric_part"]}
{"id": "C72", "title": "Uniform translations have zero frequency at Gamma", "statement": "When the force constants obey the sum rules (sums over second atoms, and over first atoms, vanish), the dynamical matrix at Gamma without NAC maps each mass-weighted uniform translation to zero.", "quantifier": "every crystal, supercell, masses, multiplicities of shortest vectors", "why_tests_cant": "all force constants obeying the rules", "anchors": ["c/dynmat.c: dym_get_dynamical_matrix_at_q, get_dynmat_ij, get_dm"]}
{"id": "C73", "title": "Dynamical matrices at -q are conjugate", "statement": "The dynamical matrix of the grid point with the negated address is the complex conjugate, without NAC, with the Wang method and with the Gonze-Lee method, whether or not a direction is given.", "quantifier": "every grid, q, force constants, Born charges, list of G vectors closed under negation", "why_tests_cant": "all grids and inputs", "anchors": ["c/phonon.c: get_undone_phonons, get_gonze_undone_phonons", "c/dynmat.c: dym_get_dynamical_matrix_at_q, dym_get_recip_dipole_dipole, dym_get_recip_dipole_dipole_q0"]}
{"id": "C74", "title": "Equivalent q-points have equivalent dynamical matrices", "statement": "Adding a reciprocal lattice vector G to q multiplies the block of atoms i, j by exp(2 pi i G.(x_j - x_i)), so frequencies do not change.", "quantifier": "every q, G, crystal; with and without NAC", "why_tests_cant": "all q and G", "anchors": ["c/dynmat.c: get_dm", "c/phonon.c: get_dynamical_matrix, get_charge_sum"]}
{"id": "C75", "title": "Grid-point integration weights count states", "statement": "get_integration_weights returns the array (grid point, frequency point, band); above all vertex values a 'J' weight is 1 and an 'I' weight 0, below all both are 0; summed over all grid points of the mesh the 'J' weights of a band are the number of states below the frequency of the linearly interpolated band, up to the guard value of the code.", "quantifier": "every BZ grid, grid rotation, lattice, frequency points, bands, number of threads and interleaving", "why_tests_cant": "all meshes, all band values, all schedules", "anchors": ["c/phono3py.c: ph3py_get_thm_integration_weights_at_grid_points (tpi_get_neighboring_grid_points, thm_get_integration_weight)", "phono3py/other/tetrahedron_method.py: get_integration_weights"]}
{"id": "C76", "title": "Accumulated spectra end at the total", "statement": "In phono3py-kaccum (KappaDOSTHM, run_prop_dos, run_mfp_dos) each value is the weighted sum over irreducible points and bands of the tetrahedron weights, the vertices taking the frequency of their irreducible point; the accumulated property at the last sampling point is the total (conductivity), its derivative there zero; for non-negative properties the accumulated value stays between zero and the total and the derivative is never negative.", "quantifier": "every BZ grid, frequencies, table of irreducible points, weights, properties, number of sampling points and temperatures", "why_tests_cant": "all grids, tables and spectra; degenerate and repeated frequencies", "anchors": ["phono3py/other/kaccum.py: KappaDOSTHM, _get_bzgp2irgp_map, run_prop_dos, run_mfp_dos", "phono3py/other/tetrahedron_method.py: get_integration_weights"]}
{"id": "C77", "title": "The smearing width asked for is used", "statement": "GammaDOSsmearing(gamma, frequencies, weights, sigma) is the weighted mean over modes of gamma times the smearing function of width sigma.", "quantifier": "every sigma, gamma, frequencies and weights", "why_tests_cant": "all widths", "anchors": ["phono3py/other/kaccum.py: GammaDOSsmearing.__init__, _run_smearing_method"]}
{"id": "C78", "title": "Grid values of the documented shape are enough", "statement": "get_integration_weights called without bzgp2irgp_map on values of shape (regular grid points, bands) returns a result determined by those values.", "quantifier": "every grid, values and sampling points", "why_tests_cant": "a read beyond an array does not fail a test", "anchors": ["phono3py/other/tetrahedron_method.py: get_integration_weights", "c/phono3py.c: ph3py_get_thm_integration_weights_at_grid_points"]}
{"id": "C79", "title": "Symmetric q-points have equal integration weights", "statement": "If the values at the points of the mesh are symmetric under an operation of the lattice, the integration weights at a point and at its image are equal, so the weight at an irreducible point may stand for its star.", "quantifier": "every grid, symmetric values, operation, sampling point, 'J' and 'I'", "why_tests_cant": "all operations and values", "anchors": ["phono3py/other/kaccum.py: KappaDOSTHM", "c/tetrahedron_method.c: thm_get_relative_grid_address, thm_get_integration_weight"]}
{"id": "C80", "title": "fc3 in reciprocal space is the lattice sum over both other atoms", "statement": "Element (i,l; j,m; k,n) of the reciprocal-space fc3 of a triplet of q-points is the sum over supercell atoms s like j and t like k of fc3 times exp(2 pi i q1.r_s) exp(2 pi i q2.r_t), each averaged over the shortest vectors, times the phase of the first atom; with --v2/make_r0_average it is the mean of the three sums seen from each of the three atoms. Compact and full fc3 give the same.", "quantifier": "every fc3, table of shortest vectors, triplet, number of atoms, both modes, every schedule of the parallel loop, and whatever the memory held before", "why_tests_cant": "all crystals, thread schedules and memory contents", "anchors": ["c/real_to_reciprocal.c: r2r_real_to_reciprocal, real_to_reciprocal_legacy, real_to_reciprocal_r0_average", "c/interaction.c: real_to_normal"]}
{"id": "C81", "title": "Interaction strengths are periodic in reciprocal space", "statement": "Adding reciprocal lattice vectors to the q-points of a triplet multiplies the elements of the reciprocal-space fc3 by phases of the atoms only, so that with eigenvectors taken at the shifted q-points the interaction strengths are the same.", "quantifier": "every crystal, fc3, triplet, reciprocal lattice vectors, both modes", "why_tests_cant": "all reciprocal lattice vectors and structures", "anchors": ["c/real_to_reciprocal.c: r2r_real_to_reciprocal", "phono3py/phonon3/interaction.py: Interaction.run"]}
{"id": "C82", "title": "The table of closing triplets does not change the average over origins", "statement": "Where the three shortest vectors of a triplet of atoms close, make_r0_average takes three times the first term and leaves the other two out. For an fc3 symmetric under exchange of atoms and invariant under lattice translations this gives exactly the average over the three origins, and building the table never fails its assertion.", "quantifier": "every crystal with tables of shortest vectors, symmetric invariant fc3, triplet with q0+q1+q2 a reciprocal lattice vector", "why_tests_cant": "all crystals, supercells and triplets", "anchors": ["phono3py/phonon3/interaction.py: Interaction._get_all_shortest", "c/real_to_reciprocal.c: real_to_reciprocal_elements, real_to_reciprocal_r0_average"]}
{"id": "C83", "title": "Interaction strength does not depend on the order of the three phonons", "statement": "For a symmetric fc3 the interaction strength is the same in every order of the three phonons (make_r0_average); symmetrizing collision matrices and reading triplets as unordered sets relies on it.", "quantifier": "every crystal, symmetric fc3, triplet, modes", "why_tests_cant": "all crystals, triplets and orders", "anchors": ["c/real_to_reciprocal.c: real_to_reciprocal_r0_average, real_to_reciprocal_legacy", "phono3py/phonon3/interaction.py: Interaction.__init__ (make_r0_average)"]}
{"id": "C84", "title": "The Python and C transforms to reciprocal space agree", "statement": "RealToReciprocal (lang='Python') and the C function give the same interaction strengths: their arrays differ by an overall phase only.", "quantifier": "every crystal, fc3, mesh, triplet of addresses whose sum is a multiple of the mesh", "why_tests_cant": "all meshes and triplets", "anchors": ["phono3py/phonon3/real_to_reciprocal.py: RealToReciprocal.run", "c/real_to_reciprocal.c: real_to_reciprocal_legacy"]}
{"id": "C85", "title": "Acoustic modes at Gamma do not interact", "statement": "For an fc3 obeying the translational sum rule, the amplitude of a triplet with an acoustic mode at Gamma (all atoms moving alike) vanishes.", "quantifier": "every crystal, fc3 with zero sums, triplet with one q-point at Gamma, other two modes arbitrary", "why_tests_cant": "all crystals and triplets", "anchors": ["c/real_to_reciprocal.c: real_to_reciprocal_legacy, real_to_reciprocal_r0_average", "phono3py/phonon3/fc3.py: set_translational_invariance_fc3"]}
{"id": "C86", "title": "Time reversal: opposite triplets have complex conjugate fc3 and equal strengths", "statement": "Changing the sign of all three q-points turns the reciprocal-space fc3 into its complex conjugate, so that interaction strengths of opposite triplets (with conjugate eigenvectors) are equal and half of the triplets need not be computed.", "quantifier": "every crystal, fc3, triplet, both modes", "why_tests_cant": "all triplets", "anchors": ["c/real_to_reciprocal.c: r2r_real_to_reciprocal", "phono3py/phonon3/triplets.py: get_triplets_at_q"]}
{"id": "C87", "title": "Triplets related by crystal symmetry have equal interaction strengths", "statement": "For a symmetry operation of the crystal (rotation, improper rotation, screw or glide) that leaves fc3 invariant, the reciprocal-space fc3 of the rotated triplet is the rotated one up to a common phase, and interaction strengths with rotated eigenvectors are equal; computing only triplets irreducible under the point group relies on it.", "quantifier": "every crystal, symmetry operation, invariant fc3, triplet, both modes and with the table of closing triplets", "why_tests_cant": "all crystals, operations and triplets", "anchors": ["c/real_to_reciprocal.c: r2r_real_to_reciprocal", "phono3py/phonon3/interaction.py: Interaction.set_grid_point, Interaction.run", "phono3py/phonon3/triplets.py: get_triplets_at_q"]}
{"id": "C88", "title": "Frequencies are equal at q-points related by crystal symmetry", "statement": "For a symmetry operation of the crystal that leaves fc2, masses, Born charges and dielectric tensor invariant, the dynamical matrix computed at the rotated q-point is the rotated dynamical matrix: it has the same eigenvalues, and a vector is an eigenvector at one q-point exactly when the vector carried by the operation is one at the other. This holds without and with the non-analytical term (Wang, or Gonze with a G-vector set invariant under the operation), so phonons at the irreducible grid points determine those at all grid points.", "quantifier": "every crystal, symmetry operation, invariant fc2/charges, q-point and direction", "why_tests_cant": "all crystals, operations and q-points", "anchors": ["c/dynmat.c: dym_get_dynamical_matrix_at_q, dym_get_charge_sum, dym_get_recip_dipole_dipole, dym_get_recip_dipole_dipole_q0", "c/phonon.c: get_undone_phonons, get_gonze_undone_phonons", "phono3py/phonon3/interaction.py: Interaction.run_phonon_solver, Interaction.run_phonon_solver_with_eigvec_rotation"]}
{"id": "C89", "title": "Isotope scattering rates follow the golden rule, in C and in Python", "statement": "Isotope.run gives for each chosen band pi/4 f0^2/N times the sum over all modes of the mass variances times the squared overlaps of the atoms' displacements times the smearing (or tetrahedron) weight, leaving out modes below the cutoff frequency, whatever the scheduling of the threads; run(lang='Py') gives the same numbers as run(lang='C').", "quantifier": "every set of phonons, band indices, grid, smearing width or weights, cutoff, thread schedule", "why_tests_cant": "all phonons, band choices and schedules", "anchors": ["c/isotope.c: iso_get_isotope_scattering_strength, iso_get_thm_isotope_scattering_strength", "phono3py/other/isotope.py: Isotope._run_c, Isotope._run_py"]}
{"id": "C90", "title": "Isotope linewidths are physical quantities", "statement": "Linewidths by isotope scattering are not negative, vanish without mass disorder, do not depend on the phases of eigenvectors nor (summed over degenerate bands) on the basis chosen in degenerate spaces at any grid point, and are equal at grid points related by a symmetry operation, on which computing them at irreducible grid points only relies.", "quantifier": "every set of phonons, unitary mixing at every grid point, symmetry operation", "why_tests_cant": "all choices of eigenvectors and operations", "anchors": ["c/isotope.c: iso_get_isotope_scattering_strength, iso_get_thm_isotope_scattering_strength", "phono3py/other/isotope.py: Isotope.run", "phono3py/conductivity/base.py: ConductivityBase._get_gamma_isotope_at_sigmas"]}
{"id": "C91", "title": "Computing the conductivity from irreducible grid points does not change it", "statement": "The thermal conductivity in the relaxation time approximation is the sum over all grid points and bands of C v v / (2 linewidth) divided by the number of grid points, with boundary and isotope linewidths included; the value obtained from irreducible grid points, with velocities turned by the operations of the point group and divided by the multiplicity, is the same (is_kappa_star on or off).", "quantifier": "every mesh, point group, set of phonons with the symmetry of the crystal, Cartesian indices", "why_tests_cant": "identity between two different sums; tests compare a few numbers with stored ones", "anchors": ["phono3py/conductivity/base.py: ConductivityMixIn._get_gv, _get_gv_by_gv, _set_gv_by_gv, ConductivityBase._get_point_operations, _get_grid_info, _get_multiplicity_at_q, _get_main_diagonal, _get_boundary_scattering", "phono3py/conductivity/rta.py: ConductivityRTA.set_kappa_at_sigmas"]}
{"id": "C92", "title": "The conductivity tensor is physical", "statement": "The thermal conductivity in the relaxation time approximation is a symmetric positive semidefinite tensor, is invariant under every operation of the point group when irreducible grid points are used, and is not increased along any direction by additional scattering.", "quantifier": "every set of phonons with non-negative linewidths and heat capacities, every direction", "why_tests_cant": "all inputs; physical law", "anchors": ["phono3py/conductivity/base.py: ConductivityMixIn._set_gv_by_gv, _get_main_diagonal", "phono3py/conductivity/rta.py: ConductivityRTA.set_kappa_at_sigmas"]}
{"id": "C93", "title": "The direct solution reports the same relaxation time approximation as the RTA calculation", "statement": "kappa_RTA of the direct solution of the Boltzmann equation (irreducible collision matrix), computed from the scaled velocities X and the solution Y = X / linewidth with weights from the numbers of arms of the stars, equals the conductivity computed by the RTA calculation.", "quantifier": "every mesh, point group, temperature, set of phonons", "why_tests_cant": "identity between two different formulas (sinh and heat capacity, square-root weights and multiplicities)", "anchors": ["phono3py/conductivity/direct_solution.py: ConductivityLBTEBase._get_X, _get_weights, _set_kappa_RTA_ir_colmat, _set_mode_kappa", "phono3py/conductivity/rta.py: ConductivityRTA.set_kappa_at_sigmas"]}
{"id": "C94", "title": "The relaxation time approximation from the full collision matrix uses its diagonal as linewidths", "statement": "With the full collision matrix kappa_RTA is the sum over all grid points and bands of C v v / (2 linewidth) with the diagonal elements of the collision matrix as linewidths; symmetrization by the operations does not change it.", "quantifier": "every mesh, point group, BZ grid, set of phonons", "why_tests_cant": "depends on two indexings of grid points that coincide on small meshes used in tests", "anchors": ["phono3py/conductivity/direct_solution.py: ConductivityLBTEBase._get_X, _set_kappa_RTA_reducible_colmat, _set_mode_kappa"]}
{"id": "C95", "title": "Niggli reduction gives a reduced basis of the same lattice", "statement": "niggli_reduce returns a basis of the same lattice with the same handedness, whatever it reports; when it reports success the basis fulfils the conditions of a Niggli-reduced basis within the tolerance (likewise for a layer with one aperiodic axis), and its vectors are the successive minima of the lattice if near ties are exact.", "quantifier": "every lattice, tolerance, aperiodic axis", "why_tests_cant": "all lattices; minimality quantifies over all lattice vectors", "anchors": ["c/niggli.c: niggli_reduce, niggli_reduce_periodic, step1 to step8"]}
{"id": "C96", "title": "BZ grid addresses lie in the first Brillouin zone of the given lattice", "statement": "The addresses stored for a grid point by the function that makes the BZ grid are, in the reciprocal lattice given by the user, a shortest one among all infinitely many translates of the grid point and those not longer within tolerance, although only 125 translates are searched; the function fails only if the reduction of the lattice fails.", "quantifier": "every non-degenerate reciprocal lattice, mesh, unimodular transformation, shift, both layouts", "why_tests_cant": "the claim quantifies over all reciprocal lattice vectors", "anchors": ["c/gridsys.c: gridsys_get_bz_grid_addresses", "c/bzgrid.c: bzg_get_bz_grid_addresses", "c/niggli.c: niggli_reduce"]}
{"id": "C97", "title": "Frequency shifts are the regularized shifts of the two-phonon spectrum", "statement": "The real part of the self-energy at a band or frequency point is the sum over all lines of the two-phonon spectrum (sums and differences of two frequencies at the other two q-points) of strength times distance over (distance squared plus epsilon squared), zero below the cutoff frequency; C and Python agree; exchanging the two q-points changes nothing; at 0 K a mode below all sums is shifted downwards; epsilon changes a shift away from the lines only in second order and bounds all shifts.", "quantifier": "all triplets, weights, frequencies, interaction strengths, temperatures including 0 K, epsilons, cutoffs", "why_tests_cant": "all inputs; sign and limit statements", "anchors": ["c/real_self_energy.c: rse_get_real_self_energy_at_bands, rse_get_real_self_energy_at_frequency_point", "phono3py/phonon3/real_self_energy.py: RealSelfEnergy._run_py_with_band_indices, _run_py_with_frequency_points"]}
{"id": "C98", "title": "Linewidths, shifts and spectral functions belong together", "statement": "The shift obtained from linewidths on frequency points is their discrete Kramers-Kronig integral, on the same points, points that are not uniform from zero being refused; when the integration weights of the linewidths are delta functions on the points it equals the shift computed directly from the interaction; the spectral function is minus the imaginary part over pi of the solution of Dyson's equation, is not negative, and is at most 1 over pi times the linewidth.", "quantifier": "every number of frequency points, all linewidths, all triplets and frequencies on the points, all temperatures", "why_tests_cant": "identity between two calculations that share no code", "anchors": ["phono3py/phonon3/real_self_energy.py: ImagToReal, imag_to_real", "phono3py/phonon3/spectral_function.py: SpectralFunction._run_delta, _get_spectral_function", "c/imag_self_energy_with_g.c: ise_get_imag_self_energy_at_bands_with_g"]}
{"id": "C99", "title": "Files of spectral functions and shifts tell which bands they hold", "statement": "The text file of a group of bands holds the mean over that group; spectral-*.hdf5 stores the band indices of its arrays; runs for different bands or with different output file names do not write the same file.", "quantifier": "all groups of bands, meshes, grid points", "why_tests_cant": "all groups of bands; distinctness of file names over all pairs of runs", "anchors": ["phono3py/phonon3/spectral_function.py: run_spectral_function", "phono3py/phonon3/real_self_energy.py: get_real_self_energy, write_real_self_energy", "phono3py/file_IO.py: write_spectral_function_to_hdf5, write_real_self_energy_to_hdf5"]}
{"id": "C100", "title": "Mode Grueneisen parameters are the strain derivatives of the squared frequencies of the relaxed crystal", "statement": "The tensor gamma of a mode satisfies <w|D(E)|w> = <w|D|w> - 2 omega^2 sum gamma_kl E_kl for every displacement gradient E, where D(E) is built from the force constants that fc3 gives for the deformed crystal; the internal displacements used cancel the forces caused by the deformation up to a rigid acceleration of the cell; a common shift of the atoms, the phase of the eigenvector, q -> -q and a common factor on all force constants do not change gamma; full force constants can always be indexed and compact ones are either refused or handled.", "quantifier": "all cells, force constants with zero sums, deformations, wave vectors, modes", "why_tests_cant": "a test compares a few numbers of one crystal; the relation to the deformed crystal and the cancellation of forces hold for all force constants", "anchors": ["phono3py/phonon3/gruneisen.py: Gruneisen", "phono3py/cui/phono3py_script.py: run_gruneisen_then_exit"]}
{"id": "C101", "title": "Joint density of states: C and Python paths give the same two spectra, and they count pairs of modes", "statement": "For a given temperature both implementations of run_jdos give, at each frequency point, the sum over triplets (with their weights) and pairs of modes above the cutoff of (n1 + n2 + 1) times the weight of the sum process and of (n1 - n2) times the weight of the difference process, whatever the order in which the threads finish; at zero temperature the C path leaves the plain count of pairs; without temperature the plain weights are summed; when the weights of each pair integrate to one the integral of the spectrum is the squared number of bands.", "quantifier": "all meshes, triplets, bands, integration weights, temperatures, schedules of the parallel loops", "why_tests_cant": "the two implementations index the weight array and the cutoff differently and a test compares one crystal at rounding accuracy; schedules of threads cannot be enumerated", "anchors": ["phono3py/phonon3/joint_dos.py: JointDos.run_jdos, _run_c_with_g_at_temperature, _run_py_with_g_at_temperature"]}
{"id": "C102", "title": "Wigner conductivity: every pair of populated modes is counted once, with the Peierls limit, the crystal's symmetry and independence of the choice of degenerate eigenvectors", "statement": "The populations' and the coherences' conductivities of a grid point are the sums, over pairs of modes above the cutoff that are closer and farther than 1e-4 THz, of mean heat capacity times Lorentzian times the product of the velocity operators; a mode without neighbour gives the ordinary relaxation time value; both parts are non-negative, the coherences' part is symmetric in the two bands, the products are positive semidefinite and invariant under the point group; mixing degenerate modes by a unitary matrix changes neither conductivity. Repeating the calculation, and the group velocities reported for degenerate modes, are also examined.", "quantifier": "all numbers of bands, frequencies, linewidths, velocity operators, groups of rotations, unitary mixings", "why_tests_cant": "tests compare kappa of two crystals; eigenvectors of degenerate modes are fixed by the LAPACK at hand, so no test can vary them", "anchors": ["phono3py/conductivity/wigner.py: ConductivityWignerMixIn", "phono3py/conductivity/rta.py: ConductivityWignerRTA.set_kappa_at_sigmas"]}
{"id": "C103", "title": "Kubo conductivity: symmetric heat capacity matrix, all pairs of populated modes, velocity matrices kept by their site symmetry", "statement": "The heat capacity matrix is symmetric and positive with the mode heat capacities on its diagonal and does not depend on the other modes; the conductivity is the sum over all pairs of modes above the cutoff with the same Lorentzian as the Wigner one, its diagonal being the relaxation time value; symmetrising a velocity matrix that already has the symmetry of the eigenvectors leaves it as it is.", "quantifier": "all numbers of bands, frequencies, temperatures, linewidths, velocity matrices, rotations", "why_tests_cant": "no test of the project looks at these matrices off the diagonal, and failure needs zone-centre points, low temperatures or mirror planes", "anchors": ["phono3py/conductivity/kubo.py: ConductivityKuboMixIn", "phono3py/conductivity/rta.py: ConductivityKuboRTA", "phono3py/phonon/heat_capacity_matrix.py: mode_cv_matrix", "phono3py/phonon/group_velocity_matrix.py: GroupVelocityMatrix._symmetrize_group_velocity_matrix"]}
{"id": "C104", "title": "load() takes force constants and datasets from the documented places, checked and in the right units", "statement": "With a structure given, phono3py_yaml plays no role. The dataset is the one of phono3py_yaml if it has forces, else the content of the force file asked for (or FORCES_FC3 / FORCES_FC2), else the displacements of phono3py_yaml; displacements and forces are converted to A and eV/A exactly once and the atoms agree with the supercell. Force constants come from the named file, else fc3.hdf5/fc2.hdf5, checked against the supercell, else from the dataset with forces.", "quantifier": "all combinations of arguments, files in the directory, datasets, units, numbers of atoms", "why_tests_cant": "tests load a few fixed directories; the order of sources matters in the combinations that are not tested, where the wrong force constants are used silently", "anchors": ["phono3py/cui/load.py: load, load_fc2_and_fc3, load_dataset_and_phonon_dataset, compute_force_constants_from_datasets", "phono3py/cui/create_force_constants.py: parse_forces, _read_FORCES_FC3_or_FC2, _convert_unit_in_dataset"]}
{"id": "C105", "title": "Files of force constants hold what the run used and can be used by the next run", "statement": "phono3py-load uses fc3.hdf5 and fc2.hdf5 when present, else computes them; afterwards the files hold what the run used, and a second run goes on with the same force constants. phono3py leaves the files alone when it reads both, writes what it goes on with when it computes, and reading back gives the same.", "quantifier": "all file contents, datasets, settings that select what is read, cutoff distances", "why_tests_cant": "needs sequences of runs in one directory; tests run commands once in a clean directory", "anchors": ["phono3py/cui/phono3py_script.py: _store_force_constants", "phono3py/cui/create_force_constants.py: create_phono3py_force_constants"]}
{"id": "C106", "title": "Calculators and options are assigned to the right order of force constants", "statement": "One name or option string is for both orders, 'a|b' gives a to fc2 and b to fc3 with an empty side meaning not set; known names pass in lower case; the pair cutoff is added to the options of fc3 only and never replaces a cutoff given there.", "quantifier": "all strings, options, cutoff values, sets of calculator names", "why_tests_cant": "tests use one or two fixed strings; a cutoff that reaches fc2 or a calculator used for the wrong order changes results without an error", "anchors": ["phono3py/interface/fc_calculator.py: extract_fc2_fc3_calculators, update_cutoff_fc_calculator_options", "phono3py/cui/create_force_constants.py: get_fc_calculator_params, _set_cutoff_in_fc_calculator_options", "phono3py/cui/load.py: compute_force_constants_from_datasets"]}
{"id": "C107", "title": "A setting comes from the command line, else from the configuration file, else from its default", "statement": "For each documented option of phono3py / phono3py-load that phono3py's own parser handles: if the option is on the command line, the setting is what its last occurrence says (switches take their fixed value); otherwise, if the configuration file has the tag of the option (in any letter case), it is what the last such line says; otherwise it is the documented default. --wigner/--kubo select the conductivity type (kubo when both).", "quantifier": "all command lines (any number and order of options and words), all configuration files (any lines), both commands, every option of the documented table", "why_tests_cant": "The combinations of 50 options with any configuration file are unbounded; a test covers single combinations, and options that are silently ignored are not noticed by a test that checks that a run finishes.", "anchors": ["phono3py/cui/settings.py:375-1104", "phono3py/cui/settings.py:44-121", "phono3py/cui/phono3py_argparse.py:40-931", "doc/command-options.md:798"]}
{"id": "C108", "title": "A run of the command performs the calculation it was asked for, or refuses", "statement": "A run of phono3py or phono3py-load performs only calculations that were asked for (--gruneisen, --jdos, --isotope, --ise, --rse, --spf, --br, --lbte) and at most one of them. If one calculation is asked for with what it needs (mesh, grid points where needed), it is performed and the run ends without error; if the mesh or the grid points are missing, the run is refused before force constants are made. The mode that is shown is the calculation that is run, an exit without error means that it was performed, and grid points of the command line are used.", "quantifier": "all combinations of the options and of what is found in the input files (31 independent settings)", "why_tests_cant": "2^31 combinations; tests run the command with a few of them, and never with two calculations or with missing input.", "anchors": ["phono3py/cui/phono3py_script.py:186-211", "phono3py/cui/phono3py_script.py:912-1383", "phono3py/cui/create_supercells.py:49-178", "phono3py/cui/create_force_constants.py:123-131"]}
{"id": "C109", "title": "Default temperatures, sigmas and sampling of a run", "statement": "The temperatures of a run are tmin, tmin+tstep, ... up to tmax, including tmax when it is a whole number of steps away, and none above tmax; --ts replaces them; they are those at which the calculation is done. There is always at least one integration method: the given sigmas in order, preceded by the tetrahedron method if asked for, or the tetrahedron method alone. The number of frequency points wins over the pitch, and 201 points are used without both. The default cutoff frequency is the same in all calculations.", "quantifier": "all temperatures and steps (rational, step > 0), all lists of sigmas, all combinations", "why_tests_cant": "Tests use the defaults; the boundary of arange depends on the step.", "anchors": ["phono3py/cui/phono3py_script.py:366-421", "phono3py/cui/phono3py_script.py:799", "phono3py/other/isotope.py:121-124"]}
{"id": "C110", "title": "Phonons written by one run are the phonons used by a later run", "statement": "Without --read-phonon a run uses the solutions of the dynamical matrix at every grid point, and --write-phonon stores exactly them. With --read-phonon the phonons of the file are used, the file is left as it was, and a run that reads what another one wrote uses the same phonons whatever its own solver gives. Frequencies at Gamma that are announced as forced to be zero are zero in the calculation.", "quantifier": "all grids (any number of points), all solvers, all files, all combinations of the two options", "why_tests_cant": "Tests use one small mesh and one solver, so that overwritten or recomputed phonons agree with those read.", "anchors": ["phono3py/cui/phono3py_script.py:860-909", "phono3py/phonon3/interaction.py:711-721", "phono3py/phonon3/interaction.py:1028-1047", "phono3py/api_phono3py.py:2532-2558"]}
{"id": "C111", "title": "Direct solution of the LBTE: full and symmetry-reduced collision matrices, and all solvers, give the same conductivity", "statement": "For a collision matrix, group velocities and mode factors that have the point-group symmetry of the crystal, the direct solution with --full-pp-like reducible collision matrix and the symmetry-reduced one give the same f-vectors at the irreducible grid points, the same mode kappa (summed over the star of the irreducible point) and the same thermal conductivity tensor, whatever eigenvalues are cut off, whatever set of eigenvectors is returned for degenerate eigenvalues and whichever of the solvers 1 to 6 is selected for each (including the multi-threaded built-in pseudo-inverse under any schedule, which leaves the Moore-Penrose inverse); if nothing is cut off Y solves the equation; the conductivity tensor is positive semidefinite; the log states how many dimensions were ignored.", "quantifier": "all finite point groups acting on any grid with any number of bands, all symmetric collision matrices, all diagonalizations, solvers, cutoffs and pinv methods, all thread schedules", "why_tests_cant": "Tests run the two ways on a few crystals and compare rounded numbers with one LAPACK library; they cannot cover all groups, degenerate eigenspaces, cutoffs and thread schedules.", "anchors": ["phono3py/conductivity/direct_solution.py:539-603", "phono3py/conductivity/direct_solution.py:657-728", "phono3py/conductivity/direct_solution.py:791-922", "phono3py/conductivity/direct_solution.py:1052-1092", "c/lapack_wrapper.c:206-292"]}
{"id": "C112", "title": "Collecting forces (--cf3, --cf2, --cfz, --sp) attaches to every displacement the forces of its own supercell", "statement": "If the calculator output files are given in the order in which the displaced supercells were written, FORCES_FC3, FORCES_FC2 and phono3py_params.yaml hold for every included displacement (pair) the forces of exactly its own displaced supercell, less those of the perfect supercell if asked for, excluded pairs hold zeros, displacements are unchanged, and both kinds of file lead to the same force constants. Both force sets are read with the calculator recorded in the displacement file. A wrong number of files, a missing file or a failed collection ends the program cleanly before any file is written. FORCE_SETS made from FORCES_FC3 holds the forces of the single displacements.", "quantifier": "all type-1 and type-2 datasets with any pattern of excluded pairs, all calculators (any function from configurations to forces), all options", "why_tests_cant": "Tests create the files for one crystal and compare a few numbers; they cannot cover the correspondence between supercell files and displacement pairs for all exclusion patterns, calculators and option combinations.", "anchors": ["phono3py/cui/create_force_sets.py:69-182", "phono3py/cui/create_force_sets.py:202-259", "phono3py/cui/create_force_sets.py:262-344", "phono3py/cui/create_force_sets.py:347-450", "phono3py/cui/create_force_sets.py:453-515", "phono3py/file_IO.py:191-252"]}
{"id": "C113", "title": "SSCHA matrices are those of the harmonic Gaussian and the averages return the force constants", "statement": "For every supercell, set of force constants and temperature, upsilon_matrix and psi_matrix of DispCorrMatrix (and of DispCorrMatrixMesh) are symmetric, are inverse to each other on the modes above the cutoff, do not depend on the choice of eigenvectors, and prefactor * exp(-u Upsilon u / 2) is the normalized probability density of displacements whose modes have variances sigma^2. SecondOrderFC gives the force constants that fit the forces best in the least squares sense, exactly the true ones for a harmonic crystal with enough displacements; ThirdOrderFC gives the cubic force constants of a crystal sampled by a Gaussian ensemble and zero for a harmonic one. sigma_squared leaves numpy's error handling as it found it.", "quantifier": "all numbers of atoms, masses, force constants, eigenvector choices, cutoffs, numbers of snapshots, displacements and forces", "why_tests_cant": "Tests compare a few elements of the matrices of one crystal with stored numbers made by random snapshots; neither the inverse relation, nor independence of degenerate eigenvectors, nor optimality of the fit, nor the exact recovery of cubic terms can be concluded from samples.", "anchors": ["phono3py/sscha/sscha.py:51-131", "phono3py/sscha/sscha.py:134-231", "phono3py/sscha/sscha.py:234-326", "phono3py/sscha/sscha.py:329-445", "phono3py/sscha/sscha.py:448-564", "phono3py/phonon/func.py:68-105"]}
{"id": "C114", "title": "Velocity operators are Hermitian derivatives of the square root of the dynamical matrix", "statement": "For every crystal and q-point VelocityOperator gives Hermitian matrices <s| d sqrt(D) / dq |s'>: the matrix it differentiates squares to the dynamical matrix and does not depend on the choice of eigenvectors, its finite difference X satisfies the equation of the derivative of a square root, the diagonal elements are central differences of the frequencies where eigenvectors do not change, -q gives minus the complex conjugate, next to the origin the acoustic modes are left out, and velocities of frequencies below cutoff_frequency are zero as documented.", "quantifier": "all numbers of bands, dynamical matrices as functions of q, eigenvector choices, steps, q-points and directions", "why_tests_cant": "Tests compare Wigner conductivities of one crystal with stored values; the defining identities of the operator for all dynamical matrices, in particular with degenerate bands, are not tested.", "anchors": ["phono3py/phonon/velocity_operator.py:81-159", "phono3py/phonon/velocity_operator.py:161-202", "phono3py/phonon/velocity_operator.py:204-234"]}
{"id": "C115", "title": "Group velocity matrices are Hermitian, vanish below the cutoff and treat degenerate bands consistently", "statement": "GroupVelocityMatrix returns for each direction a Hermitian matrix whose rows and columns of frequencies not above the cutoff vanish, whose diagonal elements are the group velocities of the vectors used, and which in every set of degenerate bands is diagonal for the velocity along the perturbation direction; the vectors used are orthonormal eigenvectors of the same frequencies and the trace over a degenerate set does not depend on the perturbation direction.", "quantifier": "all numbers of bands, derivatives of the dynamical matrix, partitions into degenerate sets, frequencies, cutoffs and directions", "why_tests_cant": "Tests check Kubo conductivities of one crystal; the treatment of degenerate bands for all derivative matrices and directions is not observable there.", "anchors": ["phono3py/phonon/group_velocity_matrix.py:132-159", "phono3py/phonon/group_velocity_matrix.py:188-214"]}
{"id": "C116", "title": "Wigner conductivity of the direct solution agrees with the Wigner RTA calculation", "statement": "For the same phonons, linewidths and velocity operators, a direct solution of the Wigner transport equation reports the same coherences' conductivity kappa_C and the same relaxation-time populations' conductivity kappa_P_RTA as the Wigner RTA calculation, its sums over pairs of bands are real, and the totals kappa_TOT_RTA and kappa_TOT_exact, as attributes and in the file, are the sums of the two parts.", "quantifier": "every mesh, point group, number of bands, all phonons, linewidths, Hermitian velocity operators, temperatures, cutoff", "why_tests_cant": "two separate implementations whose agreement over all spectra, including degenerate ones and ones at the threshold, cannot be sampled", "anchors": ["phono3py/conductivity/direct_solution.py:1552-1692", "phono3py/conductivity/rta.py:721-804", "phono3py/conductivity/wigner.py:106-222", "phono3py/conductivity/utils.py:521-633"]}
{"id": "C117", "title": "Collective phonons, mean free paths and f-vectors describe the direct solution", "statement": "With solve_collective_phonon the direct solution gives, for every mode, the same contribution to the conductivity as the ordinary solution, and none of the contributions to a diagonal element is negative; the stored mean free paths are the group velocities times the lifetimes in the relaxation time approximation and, with the heat capacities and group velocities, make up the conductivity; the f-vectors written to the file of a smearing width are those of its solution.", "quantifier": "For all point groups and their actions on grid points, all numbers of grid points, bands and operations, all collision matrices of the form that is collected, all solvers and eigenvalue tests, all frequencies, velocities, temperatures and smearing widths.", "why_tests_cant": "The collective decomposition diagonalizes, for each pair of Cartesian directions, a product of two matrices of which LAPACK reads one triangle only; that it gives the same total depends on the product being symmetric for every crystal, which a test of one crystal cannot show.", "anchors": ["phono3py/conductivity/direct_solution.py:930-948", "phono3py/conductivity/direct_solution.py:1094-1164", "phono3py/conductivity/direct_solution.py:345-347", "phono3py/conductivity/direct_solution.py:898-908", "phono3py/conductivity/direct_solution.py:1350-1393", "phono3py/conductivity/utils.py:546-633"]}
{"id": "C118", "title": "Phonons obtained by rotating eigenvectors are the phonons at every grid point", "statement": "With solve_by_rotation=True, Interaction.run_phonon_solver solves only the irreducible grid points and fills the remaining BZ grid points by rotating eigenvectors with the symmetry operations and by complex conjugation at -q. When it ends, every BZ grid point is marked done, its eigenvectors are an orthonormal set of eigenvectors of the dynamical matrix at that very grid point, and its frequencies are identical to those solve_by_rotation=False gives. The search for the reciprocal operation of each direct operation always succeeds.", "quantifier": "for all crystals with any number of atoms and operations, all meshes incl. generalized regular grids, all force constants invariant under the operations, with and without the non-analytical term of Wang or of Gonze and Lee, all irreducible grid points, all previous contents of the phonon arrays and all choices of eigenvectors in degenerate subspaces by LAPACK", "why_tests_cant": "A test compares a few frequencies of one crystal on one mesh; whether the transposed rotation, the phase with the translation, the atom permutation and the time-reversal branch fit together for every crystal system, grid and atom order, and at BZ boundary points with several copies, is not settled by examples, and eigenvectors can be compared only up to phase and degeneracy.", "anchors": ["phono3py/phonon3/interaction.py:711-721", "phono3py/phonon3/interaction.py:754-896", "phono3py/phonon/solver.py:136-140", "phono3py/phonon/grid.py:492-497"]}
{"id": "C119", "title": "The sampling grid is the one asked for and has the symmetry of the crystal", "statement": "For the mesh given (three numbers, a 3x3 matrix or a length, with or without use_grg) GridMatrix makes D, P and Q such that the q-points Q D^-1 a are exactly the wave vectors of the supercell meant, each sampled once: three numbers divide the reciprocal basis vectors, nine numbers are the grid generating matrix, one number with use_grg stands for n1 x n2 x n3 conventional cells. Enforcing the Smith normal form does not change the set of points. A generalized regular grid made from a length is compatible with all operations of the crystal, and operations are refused exactly when they do not map sampled points to sampled points. A mesh or transformation matrix that cannot be used is refused.", "quantifier": "for all lattices, transformation matrices, symmetry datasets, lengths, integer matrices and mesh numbers", "why_tests_cant": "Tests compare grids of two or three crystals with stored numbers; they cannot show that the sampled set is right for every lattice and matrix or that a grid made from a length never breaks the symmetry.", "anchors": ["phono3py/phonon/grid.py:577-855", "phono3py/phonon/grid.py:1226-1242", "phono3py/phonon/grid.py:428-445"]}
{"id": "C120", "title": "Force constants with a cutoff pair distance keep exactly what was computed", "statement": "Producing fc3 from a dataset with a cutoff pair distance marks as computed exactly the images, under the operations of the crystal, of the dataset pairs that are included (or closer than the cutoff). Each returned element is the mean of the stored values over the orders of its three atoms whose first pair was computed, so it is the true force constant wherever some pair of the three atoms was computed and the solved rows are right; elements with all three distances at or beyond the cutoff are zero; the result is symmetric under exchange of (atom, direction) pairs and still obeys the translational sum rule.", "quantifier": "every supercell, set of symmetry operations, displacement dataset, cutoff and array of force constants", "why_tests_cant": "an identity about symmetry orbits of pairs and overlapping in-place averaging over arbitrary crystals; examples only cover particular groups, and reference values hide pairs that were dropped or averaged wrongly", "anchors": ["phono3py/phonon3/fc3.py: _cutoff_fc3_for_cutoff_pairs, _get_fc3_done, _get_atom_by_symmetry, _set_permutation_symmetry_fc3_elem_with_cutoff, _copy_permutation_symmetry_fc3_elem", "doc/cutoff-pair.md"]}
{"id": "C121", "title": "phono3py-kaccum: cumulative properties end at the mesh average", "statement": "phono3py-kaccum FILE with a kappa-*.hdf5 file written at irreducible or at all grid points prints, for each temperature, a cumulative curve whose last value is the average over all points of the mesh of the property summed over the bands (--gamma, --cv, --tau, --gv-norm, --pqj, --gruneisen), the number of bands (--dos), or the thermal conductivity tensor itself (no option; --average a third of its trace, --trace its trace; with --mfp against the mean free path), with derivative zero there; --temperature T prints the block of that temperature; --no-gridsym works with phonon-*.hdf5 files; --gv and --mfp can be combined.", "quantifier": "all grids, point groups compatible with the mesh, numbers of bands, rows, temperatures and sampling points, all values in the file", "why_tests_cant": "There is no test of the command in the repository; a test compares numbers of one crystal and one mesh and cannot separate a missing weight from a different mesh, nor cover all options.", "anchors": ["phono3py/cui/kaccum_script.py:20-49", "phono3py/cui/kaccum_script.py:52-155", "phono3py/cui/kaccum_script.py:245-424", "phono3py/other/kaccum.py:263-343"]}
{"id": "C122", "title": "Python and C integration weights of triplets agree", "statement": "get_triplets_integration_weights called with lang='Py' gives the same array g as with lang='C', for smearing and for the tetrahedron method, and for two or three planes (is_collision_matrix): both compute delta(f0-f1-f2), delta(f0+f1-f2)-delta(f0-f1+f2) and the sum of the three.", "quantifier": "for all grids, relative addresses of tetrahedra, triplets of stored grid points, frequencies, sampling frequencies, smearing widths and cutoffs, and for all interleavings of the parallel loops", "why_tests_cant": "The existing test compares the two on one crystal without imaginary modes; it cannot show that the neighbouring points found by the two searches are equivalent on every grid, nor find where negative frequencies or a cutoff make them differ.", "anchors": ["phono3py/phonon3/triplets.py:148-226", "phono3py/phonon3/triplets.py:373-424", "c/triplet_iw.c:66-195"]}
{"id": "C123", "title": "Several smearing widths in one run", "statement": "In a calculation at a list of smearing widths (with None for the tetrahedron method), the linewidths of every width, and for the direct solution the elements of its collision matrix, are those of a calculation with that width alone, whether the interaction strengths are read from files, averaged, constant or calculated, with is_full_pp or not and with sigma_cutoff or not; the calculation stops only when one of the widths alone would stop it. Calculated strengths give the self-energy sums with all strengths, the strengths written to a pp file and read back for the width in its name are accepted and give the same linewidths and elements, and the low-memory loop of the relaxation time approximation gives the same linewidths as the loop that stores the strengths.", "quantifier": "all lists of widths and temperatures, all ways of finding the strengths, all numbers of bands and triplets, all previous states of the objects, all grids, frequencies and strengths", "why_tests_cant": "The strengths calculated for one width hold zeros where the weights of that width vanish. Whether they leak into the next width depends on the order of the calls and on a reset hidden in set_sigma; tests use one width at a time or one combination of options.", "anchors": ["phono3py/conductivity/rta.py", "phono3py/conductivity/direct_solution.py", "phono3py/phonon3/imag_self_energy.py", "phono3py/phonon3/interaction.py", "phono3py/conductivity/utils.py", "c/pp_collision.c"]}
{"id": "C124", "title": "Joint density of states: the frequency axis and the object", "statement": "A Phono3pyJointDos object computes, for the mesh in force, the grid points of run() and every width and temperature, the joint density of states at every frequency point, whatever the number of points in a batch; joint_dos holds the values at the last grid point and, with write_jdos, every grid point has its file. The frequency axis is uniform, starts at zero and ends above twice the highest phonon frequency plus four widths, so that nothing lies beyond it. The mesh in force is the one last set or given to initialize().", "quantifier": "all grids, grid points, widths, temperatures, directions, numbers of frequency points, steps and batch sizes; all functions for the density itself", "why_tests_cant": "Tests run one object on one mesh and compare a few stored numbers; they do not change the mesh of an object, nor the batch size, nor do they compare what is outside of the axis.", "anchors": ["phono3py/api_jointdos.py:50-298", "phono3py/phonon3/imag_self_energy.py:918-967"]}
{"id": "C125", "title": "Collision matrix: the Python and C versions of expansion and symmetrization agree", "statement": "The full (reducible) collision matrix completed by the Python branch of the expansion is, element by element, the matrix that the C loops produce under any scheduling, and symmetrization by numpy, by the loops over elements and by the C loops give the same matrix, the mean of the matrix and its transpose.", "quantifier": "all collision matrices, numbers of widths, temperatures, grid points and bands, all group actions on the grid with one representative per star, all schedules of the parallel loops", "why_tests_cant": "Tests run one of the branches only (the C extension is always there), on one crystal and mesh.", "anchors": ["phono3py/conductivity/direct_solution.py:605-634", "phono3py/conductivity/direct_solution.py:696-728", "phono3py/conductivity/direct_solution.py:1199-1234", "c/phono3py.c:486-587"]}
{"id": "C126", "title": "Third-order force constants from the forces of a dataset are those of the crystal", "statement": "When the forces of a displacement dataset are those of a crystal with given second- and third-order force constants (the change of forces by a second displacement is linear in it, with the force constants of the crystal displaced along the first one), get_fc3 returns these third-order force constants in every row, in the full and the compact layout, whatever the order of the entries of the dataset and whether or not an entry brings its own delta_fc2; it fails only when a displaced atom is not a representative or atoms cannot be mapped onto displaced ones.", "quantifier": "all supercells, symmetry operations, datasets (any number and order of first and second displacements), all second- and third-order force constants with the crystal's symmetry; all solvers and distribution functions that are exact on exact data", "why_tests_cant": "Tests compare stored force constants of a few crystals; they cannot show that grouping of displacements by atom, subtraction of the forces of the first displacement, site symmetry and expansion are right for every dataset.", "anchors": ["phono3py/phonon3/fc3.py:63-170", "phono3py/phonon3/fc3.py:385-442", "phono3py/phonon3/fc3.py:445-528", "phono3py/phonon3/fc3.py:678-760"]}
{"id": "C127", "title": "The drift shown for third-order force constants is the largest drift", "statement": "show_drift_fc3 prints for each of the three indices the largest (in absolute value) sum of the force constants over the atoms of that index and its Cartesian indices. For every full array the three numbers are attained and not exceeded, with the Cartesian indices printed. A compact array shows the same numbers and Cartesian indices as the full array it stands for, and is left as it was although the function transposes it in place.", "quantifier": "all supercells, tables of translations, force constants", "why_tests_cant": "Tests look at printed text for one material at most; that the in-place transpositions restore the array, that only atoms of the primitive cell have to be looked at and that the labels agree are statements about all arrays and lattices.", "anchors": ["phono3py/phonon3/fc3.py:576-651", "c/fc3.c:424-517"]}
{"id": "C128", "title": "Choice of the solver of the direct solution: any request gives the same solution or a clear refusal, and the files written have the eigenvectors", "statement": "With the direct solution of the LBTE, whatever --pinv-solver is given and whatever phono3py was built with (LAPACKE or not, SciPy or not), the run either stops with an error that names what is missing or gives, at every smearing width and temperature above zero, the same solution; matrices of other smearing widths and temperatures are not touched while one is solved. With --write-lbte-solution, the unitary file has the eigenvectors of the collision matrix of every smearing width and temperature as rows (as columns if it says solver 3), the coleigs file their eigenvalues in the same order, and the f-vectors written for a smearing width are its own.", "quantifier": "for all builds, requests, numbers of smearing widths and temperatures, sizes, collision matrices that the eigensolver routines diagonalize, cutoffs and schedules of the built-in inverse", "why_tests_cant": "the solvers differ in the storage order of eigenvectors and overwrite the array of all collision matrices in place; a test runs with one build, one or two solvers and one temperature", "anchors": ["phono3py/conductivity/utils.py:679-714 select_colmat_solver", "phono3py/conductivity/direct_solution.py:1841-1957 diagonalize_collision_matrix", "phono3py/conductivity/direct_solution.py:819-896 _get_Y", "phono3py/conductivity/direct_solution.py:1350-1375 _set_kappa_at_sigmas", "phono3py/conductivity/utils.py:652-676", "phono3py/file_IO.py:818-862 write_unitary_matrix_to_hdf5", "c/_phono3py.cpp:893-977", "c/lapack_wrapper.c:141-292"]}
{"id": "C129", "title": "Machine learning potentials: forces and energies of the displaced supercells, and force constants from them", "statement": "Energies and forces evaluated with a potential are those of the potential at the displaced supercells, in their order, and displacements are left unchanged. A potential is developed from displacements, forces and energies of all supercells, and incomplete data are refused with a message naming what is missing. With --pypolymlp the commands and phono3py.load use a potential in the directory if there is one, otherwise develop one from the data, and go on to the force constants; a potential of a name given or compressed is used as well.", "quantifier": "for all potentials, training functions, sets of files, datasets of both types, previous calls, with and without a phonon supercell", "why_tests_cant": "pypolymlp is mostly absent in test runs and the outcomes depend on the files in the directory, the type of the dataset and the earlier state", "anchors": ["phono3py/api_phono3py.py:2211-2345 develop_mlp, save_mlp, load_mlp, evaluate_mlp and the phonon versions", "phono3py/api_phono3py.py:689-720 mlp_dataset", "phono3py/api_phono3py.py:2560-2625 _get_forces_energies, _set_forces_energies", "phono3py/cui/create_force_constants.py:520-625 run_pypolymlp_to_compute_forces", "phono3py/cui/phono3py_script.py:1174-1215", "phono3py/cui/load.py:358-375"]}
{"id": "C130", "title": "Displacements, forces and energies for fc2 belong to the displaced phonon supercells", "statement": "Row i of phonon_displacements is the displacement of all atoms of phonon supercell i; forces and energies assigned are given back in the same order and change no displacement; arrays of a wrong shape are refused and nothing changes; phonon_supercells_with_displacements always are those of the current dataset.", "quantifier": "for all supercells, datasets of both types, values assigned and sequences of calls", "why_tests_cant": "tests assign one matching dataset once; the claim is about every shape and every order of calls", "anchors": ["phono3py/api_phono3py.py:644-687 phonon_dataset", "phono3py/api_phono3py.py:936-1039 phonon_displacements, phonon_forces, phonon_supercell_energies", "phono3py/api_phono3py.py:2624-2680 _get_phonon_forces_energies, _set_phonon_forces_energies"]}
{"id": "C131", "title": "Grid points, weights and numbers of triplets shown for planning distributed runs are those of the runs", "statement": "The irreducible grid points written by --wgp are one representative of every orbit of grid points with the size of the orbit as weight, the same the thermal conductivity run uses, so that runs at the single grid points listed, collected with their weights, cover the whole mesh once. The number of triplets shown by --stp for a grid point, for all or for the points given by --gp or --ga, is the number of triplets the run at that point handles. The memory shown is that of the arrays held.", "quantifier": "for all meshes and grids, symmetry groups acting on them, lists of grid points and options (--noks, --nomeshsym, --gp, --ga)", "why_tests_cant": "The numbers depend on mesh, symmetry, options and the list of points given; tests look at one printed case and never compare with what the runs then use", "anchors": ["phono3py/cui/triplets_info.py:48-169", "phono3py/file_IO.py:1510-1534 write_ir_grid_points", "phono3py/conductivity/base.py:697-726", "phono3py/conductivity/base.py:773-846", "phono3py/phonon3/interaction.py:580-621", "phono3py/conductivity/direct_solution.py:385-449", "phono3py/cui/phono3py_script.py:519-535,1108-1135"]}
{"id": "C132", "title": "Displacements are generated with the options given, and a recorded seed reproduces them", "statement": "generate_displacements and generate_fc2_displacements make random displacements of the cell concerned if a positive number of snapshots or \"auto\" is given (auto: twice the number symfc needs for that cell), systematic ones otherwise, with the distance given or 0.03. A seed given is used and recorded, and the recorded seed gives the same displacements again. Displacements for fc2 that exist are kept. The command makes those for fc3 and fc2 with their own options, and writes a file for every supercell that exists, numbered by its place in the dataset.", "quantifier": "for all cells, options, seeds, earlier datasets and states of the random number generator", "why_tests_cant": "The outcome depends on combinations of options, cells and earlier calls and on random numbers; tests fix one seed and one option at a time", "anchors": ["phono3py/api_phono3py.py:1227-1452 generate_displacements, generate_fc2_displacements", "phono3py/api_phono3py.py:2678-2702 _generate_random_displacements", "phono3py/cui/create_supercells.py:50-178 create_phono3py_supercells"]}
{"id": "C133", "title": "Phonons and strengths of a session belong to the inputs that are set", "statement": "After init_phph_interaction, and after any sequence of runs at grid points, calls of run_phonon_solver and get_phonon_data and assignments of nac_params, the interaction strengths computed at a grid point are those of the fc3, band indices, masses and mesh of the Phono3py object, with phonons at every grid point that are solutions for its fc2, masses and NAC parameters. Each call of init_phph_interaction gives results that do not depend on what was done before with the same inputs; without it, or once the mesh is set, all calls for results raise. Phonons given by set_phonon_data are those used by runs. Inputs that are set later (fc2, fc3, band indices, masses) are those used by later runs.", "quantifier": "for all inputs, meshes, directions and all sequences of calls of any length; for any phonon solver and any strengths as functions of these inputs", "why_tests_cant": "Tests make one object, initialise it once and run it once; the interleavings of setters, initialisations and runs on one object are unbounded in number, and a result with stale phonons is a plausible number.", "anchors": ["phono3py/api_phono3py.py:344-363", "phono3py/api_phono3py.py:435-439", "phono3py/api_phono3py.py:740-772", "phono3py/api_phono3py.py:813-815", "phono3py/api_phono3py.py:1071-1225", "phono3py/api_phono3py.py:2514-2558", "phono3py/phonon3/interaction.py:181-205", "phono3py/phonon3/interaction.py:580-752", "phono3py/phonon3/interaction.py:1028-1047", "phono3py/phonon/solver.py:42-183"]}
{"id": "C134", "title": "Force constants that are produced belong to the datasets and options of the moment", "statement": "produce_fc3 sets fc3 from the dataset that is set, with the calculator and options given, symmetrized if asked for with the built-in calculator; fc2 is set from the same solution unless a phonon supercell matrix is given or calculators are given separately. produce_fc2 sets fc2 from the dataset for phonons if there is one and from the dataset otherwise, and raises when there are no forces. Calling both gives force constants that do not depend on earlier ones. An exception changes nothing. After any number of these calls in any order the force constants are of the datasets that are set, also when a dataset is replaced, and each dataset is used with its own supercell.", "quantifier": "for all datasets, calculators, options, cells and sequences of calls of any length, and any solvers", "why_tests_cant": "Tests produce force constants once on a new object; sequences of datasets, calculators and calls on one object, with failures in between, are unbounded in number.", "anchors": ["phono3py/api_phono3py.py:1456-1526 produce_fc3", "phono3py/api_phono3py.py:1528-1584 produce_fc2", "phono3py/api_phono3py.py:1586-1629", "phono3py/api_phono3py.py:624-684", "phono3py/phonon3/dataset.py:118-124", "phono3py/cui/load.py:458-490"]}
{"id": "C135", "title": "The real part of self energies is calculated and written with the widths asked for", "statement": "run_real_self_energy uses the widths in epsilons or, without them, the numbers among the sigmas of the object, and 0.05 if there is none. The values returned are ordered by width, temperature and grid point. With write_txt there is one file for each width, temperature, grid point and set of bands; it holds the values calculated with these, and there is no other file. This holds for sigmas set in any accepted form and for both kinds of frequency points. Without temperatures the imaginary part is calculated at 300 K.", "quantifier": "for all lists of sigmas, epsilons, temperatures, grid points and sets of bands of any length", "why_tests_cant": "a test uses one list of widths; where None stands in the list, which widths reach the solver and which width is in the name of a file depend on its form", "anchors": ["phono3py/api_phono3py.py:382-398", "phono3py/api_phono3py.py:1814-1854", "phono3py/api_phono3py.py:1703-1730", "phono3py/phonon3/real_self_energy.py:543-625", "phono3py/phonon3/real_self_energy.py:671-708", "phono3py/file_IO.py:569-601"]}
{"id": "C136", "title": "Phonons that are written are read back by name", "statement": "With --write-phonon and a name given by -o or --io the phonons on the mesh are stored; a later run with --read-phonon, the same mesh and the same name given by -i or --io goes on with exactly these phonons, whatever is run in between with other names. Runs with different names never share a file. A run that does not find its file, or finds one of another mesh or grid, ends and writes nothing. With both options the phonons that are read are used and stored.", "quantifier": "for all names, meshes, grids, phonons, contents of the directory and sequences of runs of any length", "why_tests_cant": "a test reads what it has just written; names of other meshes, runs in between and the order of writing and reading within a run are not seen", "anchors": ["phono3py/cui/phono3py_script.py:307-331 get_input_output_filenames_from_args", "phono3py/cui/phono3py_script.py:860-909 init_phph_interaction", "phono3py/file_IO.py:1444-1505", "phono3py/file_IO.py:1703-1733", "phono3py/phonon3/interaction.py:692-709"]}
{"id": "C137", "title": "Rates of a Phono3pyIsotope object belong to its matrix, widths, points and bands", "statement": "After init_dynamical_matrix and run, gamma holds for each sigma, grid point and chosen band the rate calculated from that dynamical matrix, and grid_points the points of the run, also after earlier runs; both stay until the next run. Each printed row has the frequency and the rate of one band. A dynamical matrix given later is used by later runs, set_sigma changes the width, and a run without a dynamical matrix raises and leaves the rates.", "quantifier": "for all dynamical matrices, sigmas, bands, grid points and sequences of calls of any length", "why_tests_cant": "tests create an object, run it once with all bands and look at gamma; later calls, chosen bands and what is printed are not seen", "anchors": ["phono3py/api_isotope.py:46-164", "phono3py/other/isotope.py:109-141", "phono3py/other/isotope.py:153-166", "phono3py/other/isotope.py:217-276", "phono3py/other/isotope.py:371-383"]}
