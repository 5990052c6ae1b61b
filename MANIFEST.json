{"claims": [
  {"property": "C01", "status": "proved", "theorems": ["C01_forces_are_gradient", "C01_motion"], "note": "Over the reals, for every well-formed file (file_ok) with positive table spacings and a ZBL envelope exponent >= 2 (smooth_ok), every history of well-formed calls and every configuration with non-zero edge vectors inside the tables and non-zero densities (smooth_at): each force component is minus the partial derivative of the total of the node energies that the same object returns. sphericart enters as an oracle with recorded contract (array sizes; second output = derivatives of the first). The non-zero density condition is needed because the code divides by the density."},
  {"property": "C02", "status": "proved", "theorems": ["C02_ase_forces"], "note": "ASE forces are minus the derivative of the ASE energy for every atom and component, any history, periodic images and self-images; at smooth points (non-zero edge lengths inside the tables, non-zero densities), for neighbour lists that are sorted and symmetric."},
  {"property": "C03", "status": "proved", "theorems": ["C03_pair_forces"], "note": "Any file_ok/smooth_ok model, any history, any ilist permutation, ghost map, neighbour list with no listed pair exactly at the cutoff; ghost forces are unchanged in this mode."},
  {"property": "C04", "status": "proved", "theorems": ["C04_history", "C04_buffers"], "note": "For every Num structure (no arithmetic law assumed), so bit-for-bit for IEEE doubles under a fixed evaluation order. sphericart is an oracle returning arrays of the documented sizes."},
  {"property": "C05", "status": "proved", "theorems": ["C05_no_out_of_bounds"], "note": "Every read and write in the model is checked (None = out of bounds); loading and any sequence of well-formed calls return Some. Distances must lie in the tabulated cells (in_domain), see C14/C45 for what the splines do outside. 32-bit integer overflow is not modelled."},
  {"property": "C06", "status": "proved", "theorems": ["C06_disconnected"], "note": "Every Num, so bit-for-bit."},
  {"property": "C07", "status": "proved", "theorems": ["C07_neighbour_order"], "note": "Exact arithmetic (reals): sums are reordered."},
  {"property": "C08", "status": "proved", "theorems": ["C08_inert_edge"], "note": "Exact arithmetic (reals). The edge may be inserted at any position of any node's segment, with any vector and any neighbour index in range."},
  {"property": "C09", "status": "proved", "theorems": ["C09_isolated", "C09_isolated_value"], "note": "First theorem for every Num: same bits as the atom evaluated alone. Second theorem over the reals: the value is atomic_energies[species]. Neither needs that the atom is nobody's neighbour: only its own neighbour list matters."},
  {"property": "C10", "status": "proved", "theorems": ["C10_exporter_order", "C10_first_radial", "C10_second_radial", "C10_first_density", "C10_second_density"], "note": "Exporter half: the species-pair loop of extract_mace_data.py writes tables in the order of unordered pairs. Evaluator half: with tables in that order each edge (either direction) uses the table of its unordered pair, for the radial functions and their derivatives and for the density normalisation."},
  {"property": "C11", "status": "proved", "theorems": ["C11_spline_interpolates"], "note": "Over the reals, all tables of >=2 nodes; value and derivative at nodes 0..n-2 exactly, at nodes 1..n-1 as left limits."},
  {"property": "C12", "status": "proved", "theorems": ["C12_spline_derivative", "C12_spline_set_derivative"], "note": "Over the reals, at every point of the open domain including the nodes; scalar spline and every member of a spline set."},
  {"property": "C13", "status": "proved", "theorems": ["C13_scalar_evaluators_agree", "C13_set_agrees_with_scalar", "C13_set_values_bitwise"], "note": "Scalar evaluators and set values for every scalar type (bitwise); set derivatives over the reals (the code associates the products differently)."},
  {"property": "C14", "status": "partial", "theorems": ["C14_domain_guard_partial", "C14_negative_accepted_refuted", "C14_set_unguarded_refuted"], "note": "Guard proved for r>=0 and r<=-h, and no out-of-bounds read for any r in the scalar spline. Refuted parts: arguments in (-h,0) are accepted; CubicSplineSet has no guard and reads outside its table for every r at or beyond the last node."},
  {"property": "C15", "status": "proved", "theorems": ["C15_poly_value"], "note": "Over the reals; any permuting std::sort."},
  {"property": "C16", "status": "proved", "theorems": ["C16_poly_gradient"], "note": "Partial derivatives as derivable_pt_lim; evaluate_gradient_simple returns the same vector."},
  {"property": "C17", "status": "proved", "theorems": ["C17_poly_batch"], "note": "Bitwise, for every scalar arithmetic."},
  {"property": "C18", "status": "partial", "theorems": ["C18_poly_history_partial", "C18_poly_history_refuted"], "note": "Holds for histories without empty batches; with an empty batch the buffers shrink to zero and the next evaluate is out of bounds (refuted by witness)."},
  {"property": "C19", "status": "proved", "theorems": ["C19_poly_graph"], "note": "For any permuting std::sort, independent of coefficients and arithmetic."},
  {"property": "C20", "status": "partial", "theorems": ["C20_poly_repeated_partial", "C20_poly_repeated_refuted"], "note": "The code keeps only the first coefficient of a repeated monomial: full property refuted by witness, exact behaviour proved."},
  {"property": "C21", "status": "proved", "theorems": ["C21_mlp_value"], "note": "evaluate and the value part of evaluate_gradient, over the reals"},
  {"property": "C22", "status": "proved", "theorems": ["C22_mlp_jacobian"], "note": "over the reals"},
  {"property": "C23", "status": "proved", "theorems": ["C23_mlp_batch"], "note": "for every scalar arithmetic (bitwise, given that the BLAS routines sum left to right)"},
  {"property": "C24", "status": "proved", "theorems": ["C24_mlp_history"], "note": "for every scalar arithmetic"},
  {"property": "C25", "status": "proved", "theorems": ["C25_zbl_gradient"], "note": "over R, every r>0 including the cutoff, p>=2"},
  {"property": "C26", "status": "proved", "theorems": ["C26_zbl_support", "C26_zbl_envelope", "C26_zbl_continuous"], "note": "over R"},
  {"property": "C27", "status": "proved", "theorems": ["C27_zbl_symmetric", "C27_zbl_repulsive"], "note": "over R; also strictly repulsive inside the cutoff when c0>0"},
  {"property": "C28", "status": "proved", "theorems": ["C28_zbl_accumulation"], "note": "for every scalar type without algebraic laws; arrays may have extra entries and arbitrary contents"},
  {"property": "C29", "status": "proved", "theorems": ["C29_partitions"], "note": "non-empty v (for the empty vector the code returns no partition); every std::sort meeting its contract"},
  {"property": "C30", "status": "proved", "theorems": ["C30_two_part_partitions"], "note": "every v including the empty one; every std::sort meeting its contract"},
  {"property": "C31", "status": "proved", "theorems": ["C31_permutations"], "note": "std::next_permutation modelled as the textbook algorithm"},
  {"property": "C32", "status": "proved", "theorems": ["C32_product", "C32_product_repeat", "C32_generate_indices", "C32_combinations"], "note": "unbounded integers"},
  {"property": "C33", "status": "proved", "theorems": ["C33_binomial"], "note": "unbounded integers; the recursion terminates with depth at most n+1"},
  {"property": "C34", "status": "proved", "theorems": ["C34_conjugation", "C34_norm", "C34_single"], "note": "Over R. sphericart is an oracle: (l_max+1)^2 values per sample; for the agreement with sphericart_sph_harm its value at (l,m) must not depend on l_max."},
  {"property": "C35", "status": "proved", "theorems": ["C35_values", "C35_gradient"], "note": "C35_values holds for any arithmetic; C35_gradient over the reals for non-zero vectors, given the recorded contract of sphericart."},
  {"property": "C36", "status": "partial", "theorems": ["C36_xyz_partial", "C36_half_plane_partial", "C36_refuted"], "note": "False on the half plane y=0, x<0: (y>0)-(y<0) is 0 there, so the azimuth is 0 instead of pi and the value is wrong by (-1)^m (C36_half_plane_partial; witness C36_refuted). C36_xyz_partial proves the property everywhere else off the z axis, for sph_harm_xyz and real_sph_harm_xyz. tgamma and assoc_legendre are arbitrary functions."},
  {"property": "C37", "status": "proved", "theorems": ["C37_ase_momentum", "C37_pair_momentum"], "note": "ASE forces sum to zero; each of the three LAMMPS compute functions leaves the total force unchanged for arbitrary inputs whenever it returns."},
  {"property": "C38", "status": "proved", "theorems": ["C38_ase_stress", "C38_pair_virial", "C38_mpi_virial", "C38_no_mpi_virial"], "note": "ASE stress, and the LAMMPS virial of the plain pair style in all three modes (in the distributed modes summed over the processes), for every symmetric strain. The Kokkos pair style's virial loops are not modelled."},
  {"property": "C39", "status": "proved", "theorems": ["C39_mpi_message_passing", "C39_no_mpi_message_passing"], "note": "Proved for both distributed modes of the plain pair style, for every number of processes and every split whose environments agree with the serial system: energies per atom, total energy, total virial and the forces summed over the copies of each atom equal the serial no_domain_decomposition run."},
  {"property": "C40", "status": "partial", "theorems": ["C40_pair_coeff", "C40_symbols", "C40_types_used", "C40_kokkos_coeff_partial", "C40_kokkos_coeff_refuted"], "note": "CPU style proved in full. Kokkos style: agrees when all symbols are elements of the model, the model lists no element twice and there are no more types than elements; refuted otherwise (an element absent from the model is accepted and mapped to -1; more types than elements writes out of bounds)."},
  {"property": "C41", "status": "proved", "theorems": ["C41_pair_style"], "note": "Both styles."},
  {"property": "C42", "status": "partial", "theorems": ["C42_forward", "C42_reverse", "C42_kokkos_device", "C42_kokkos_host_partial", "C42_kokkos_host_refuted"], "note": "CPU style and Kokkos device functions proved for every plan of messages and every order of the parallel iterations. Kokkos host functions: proved when the host can access the views, refuted for device memory (create_mirror_view is not initialised from the view)."},
  {"property": "C43", "status": "partial", "theorems": ["C43_eatom_partial", "C43_kokkos_eatom_partial", "C43_eatom_refuted"], "note": "eatom[ii] is assigned the energy of node ii: right when ilist is the identity and eatom starts from zero; refuted for ilist = [1;0]."},
  {"property": "C44", "status": "partial", "theorems": ["C44_every_atom_partial", "C44_trailing_isolated_refuted", "C44_no_pairs_refuted"], "note": "False as stated: num_nodes is max(i_list)+1, so isolated atoms at the end of the structure are left out of energy and energies, and a structure without pairs raises. Proved when the last atom has a neighbour."},
  {"property": "C45", "status": "partial", "theorems": ["C45_kokkos_guard_partial", "C45_kokkos_guard_refuted"], "note": "csk_evaluate always guarded; the two derivative evaluators are safe below the last node. Refuted: in [(n-1)h, n h) both derivative evaluators pass their own check and read outside the coefficient table."},
  {"property": "C46", "status": "proved", "theorems": ["C46_first_layer"], "note": "Whole evaluator, for every history, every schedule and every content of uninitialised memory: the view A0 after an evaluation equals the A0 of the CPU evaluator entry by entry. Exact arithmetic. Hypotheses on the file: file_ok (MaceSpec.v) and kk_file_ok (KkSpec.v)."},
  {"property": "C47", "status": "proved", "theorems": ["C47_polynomials"], "note": "M0, M1 and the adjoints A0_adj, A1_adj after an evaluation equal those of the CPU evaluator for every interleaving of the kernels (atomic and non-atomic accesses are single steps; a data race would be undefined behaviour). Monomials have at most three factors (kk_file_ok); for longer ones loading is undefined, see C56."},
  {"property": "C48", "status": "partial", "theorems": ["C48_partial", "C48_refuted", "C48_ase_refuted"], "note": "False: node_energies only grows (mace_kokkos.cpp:59-60), so after a larger system it has too many entries (C48_refuted), and so does the 'energies' result of the ASE calculator (C48_ase_refuted). What holds: it has as many entries as the largest system evaluated so far, and the surplus entries are zero (C48_partial)."},
  {"property": "C49", "status": "proved", "theorems": ["C49_lme", "C49_lelm1lm2"], "note": "Exporter's flat coupling indices: in range, injective, and equal to the row orders used by compute_A1 and compute_Phi1, for every path list sorted by l. The exporter relies on e3nn listing the paths sorted by l."},
  {"property": "C50", "status": "proved", "theorems": ["C50_zbl_formula"], "note": "over R"},
  {"property": "C51", "status": "partial", "theorems": ["C51_no_cell_partial", "C51_no_cell_refuted"], "note": "False as stated: calculate always divides by atoms.get_volume(), which raises for structures without a three-dimensional cell. Proved: energies and forces do not depend on the volume."},
  {"property": "C52", "status": "proved", "theorems": ["C52_conjugation", "C52_basis"], "note": "Over R; tgamma positive on positive arguments, assoc_legendre arbitrary."},
  {"property": "C53", "status": "proved", "theorems": ["C53_mpi_forces", "C53_no_mpi_forces"], "note": "Composition of the agreement with the serial evaluation (C39) with the serial derivative (C03). No listed pair exactly at the cutoff; fixed neighbour lists."},
  {"property": "C54", "status": "proved", "theorems": ["C54_kokkos_is_cpu"], "note": "Equality of energies and forces with the CPU evaluator and absence of undefined behaviour, for all interleavings, histories, uninitialised memory. Exact arithmetic; sphericart is an oracle of which only the array lengths are used; TeamGemm is modelled by its contract. Files: file_ok and kk_file_ok."},
  {"property": "C55", "status": "proved", "theorems": ["C55_ends"], "note": "No infinite execution; every reachable state that has not ended can make a step; all executions end in the same state."},
  {"property": "C56", "status": "partial", "theorems": ["C56_partial", "C56_refuted"], "note": "False: the tables of monomials have three columns (mace_kokkos.cpp:1671, TODO hardcoded 3), so a file with a monomial of four factors is loaded by the CPU evaluator and writes out of bounds in the Kokkos one (C56_refuted). True under kk_file_ok (C56_partial)."},
  {"property": "C57", "status": "proved", "theorems": ["C57_ase_kokkos_is_cpu"], "note": "ASE calculator with the Kokkos evaluator against the CPU one, all histories and executions."},
  {"property": "C58", "status": "proved", "theorems": ["C58_forces", "C58_stress"], "note": "Forces and stress of the ASE calculator with the Kokkos evaluator."},
  {"property": "C59", "status": "partial", "theorems": ["C59_pair_kokkos_partial", "C59_order_refuted"], "note": "Proved when the neighbour list is in the order of the atoms (ilist = 0, 1, 2, ...). Refuted for other orders: neigh_indices holds atom indices (map_kokkos), the evaluator reads them as positions in the list; witness with two atoms listed as 1, 0, for which every execution adds too small an energy. Hypotheses taken from C40: no element twice in the model, not more LAMMPS types than elements. Per-atom energies are added to the old contents of k_eatom, which is not zeroed between calls (see C43)."},
  {"property": "C60", "status": "proved", "theorems": ["C60_forces", "C60_virial"], "note": "For neighbour lists in the order of the atoms; from C59 and C03, C38."},
  {"property": "C61", "status": "proved", "theorems": ["C61_no_mpi_kokkos", "C61_no_mpi_kokkos_serial"], "note": "Both parts for all histories and all executions; per-atom energies under the condition that the list is in the order of the atoms, as in the statement."},
  {"property": "C62", "status": "proved", "theorems": ["C62_mpi_kokkos", "C62_mpi_kokkos_serial"], "note": "All processes run compute_mpi_message_passing of the Kokkos pair style, from any reachable states (aliasing of H1 with mace->H1 included), with any schedulers; messages through the host (views in host memory) or on the device. Needs ilist = 0,1,...,nlocal-1 as the CPU mode does (C48)."},
  {"property": "C63", "status": "proved", "theorems": ["C63_M0", "C63_M0_evaluated", "C63_M0_low", "C63_M0_high"], "note": "U_matrix_real of the MACE package and the weights of the PyTorch module are inputs; for correlation orders above three the exception needs an entry of U of order 4 above 1e-12"},
  {"property": "C64", "status": "partial", "theorems": ["C64_M1_partial", "C64_M1_evaluated_partial", "C64_M1_refuted"], "note": "proved for correlation order 3 of the second product; refuted for order 4, where weights of the wrong orders are exported silently"},
  {"property": "C65", "status": "proved", "theorems": ["C65_energy_formula"], "note": "Formula in EnergySpec.v, independent of the model. The hypotheses that the grid spacings are nonzero and that monomials are listed once are needed (division by h; duplicate monomials are dropped by the loader, see C15)."},
  {"property": "C66", "status": "proved", "theorems": ["C66_isolated_atom"], "note": "From the formula of C65."},
  {"property": "C67", "status": "proved", "theorems": ["C67_export_energies"], "note": "Energies over the reals; radial functions are the interpolants at the exported knots (the shift of the knots by 1e-12 is part of the interpolant). Contracts of e3nn, scipy and numpy.linalg are explicit hypotheses."},
  {"property": "C68", "status": "proved", "theorems": ["C68_export_refuses"], "note": ""},
  {"property": "C69", "status": "proved", "theorems": ["C69_export_subset"], "note": ""},
  {"property": "C70", "status": "partial", "theorems": ["C70_repeated_species_partial", "C70_repeated_species_refuted"], "note": "False of the code: atomic_numbers are sorted but not deduplicated, so that more tables are written than C++ indexes, and the pair (2,2) of species [1,1,8] reads the table of the elements 1 and 8. What holds: the export succeeds and the sizes are as documented."},
  {"property": "C71", "status": "proved", "theorems": ["C71_export_forces"], "note": "Composition of C67 with the gradient theorem of the evaluator. Smoothness hypotheses are stated of the PyTorch model (regular, repulsion_smooth)."},
  {"property": "C72", "status": "proved", "theorems": ["C72_export_ase"], "note": "ASE calculator with an exported file; types numbered as in the PyTorch model."},
  {"property": "C73", "status": "proved", "theorems": ["C73_export_lammps_serial", "C73_export_lammps_mpi", "C73_export_lammps_no_mpi"], "note": "CPU pair style, three modes. The virial statement is for the serial mode; for the distributed modes it follows with C39."},
  {"property": "C74", "status": "proved", "theorems": ["C74_energy_invariant"], "note": "equivariance of the tables is a hypothesis, met by the example file"},
  {"property": "C75", "status": "proved", "theorems": ["C75_forces_rotate"], "note": "as C74; g orthogonal"},
  {"property": "C76", "status": "proved", "theorems": ["C76_export_rotation"], "note": "equivariance of the e3nn tensors is a hypothesis, met by the example model"},
  {"property": "C77", "status": "proved", "theorems": ["C77_ase_rotation"], "note": "as C75; atoms after the last one with a neighbour are left out of both results in the same way (see C44)"},
  {"property": "C78", "status": "proved", "theorems": ["C78_pair_rigid_motion", "C78_mpi_rigid_motion", "C78_no_mpi_rigid_motion"], "note": "equivariance of the tables is a hypothesis as in C74, C75; the neighbour list is carried along with the atoms; per-atom virials not requested"},
  {"property": "C79", "status": "proved", "theorems": ["C79_translation"], "note": "mode no_domain_decomposition; for the parallel modes C78 with the identity"},
  {"property": "C80", "status": "partial", "theorems": ["C80_polynomial_kokkos_partial", "C80_gradient_race_refuted", "C80_device_refuted", "C80_padding_refuted", "C80_no_terms_refuted"], "note": "Proved for memory accessible from the host and at least one term: all four evaluators, after any history of calls, have exactly one outcome under every interleaving and it is that of the CPU object; evaluate_gradient_simple only when no variable occurs in two terms. Refuted otherwise: two terms with a common variable are a data race on g (line 124, not atomic); in memory the host cannot access, forward_pass dereferences device views on the host, and the host mirror of monomials is not initialised with -1 so that evaluate_simple multiplies short terms by x0; without terms the constructor writes outside the view nodes."},
  {"property": "C81", "status": "partial", "theorems": ["C81_kokkos_spline_partial", "C81_kokkos_spline_views_partial", "C81_device_refuted"], "note": "Proved for memory accessible from the host, from vectors and from views: the constructor has one outcome under every interleaving, evaluate agrees with the CPU class for every argument, the derivative evaluators for every argument below the last node (their guards beyond it are C45). Refuted on a device with its own memory: create_mirror_view without deep_copy, so all three evaluators return zero."},
  {"property": "C82", "status": "partial", "theorems": ["C82_kokkos_spline_set_partial", "C82_unguarded_refuted", "C82_view_constructor_refuted"], "note": "Proved for the constructor from vectors and all five calls, after any history, for arguments within the nodes (span overloads where the host can access the views). Refuted: an argument at or beyond the last node reads outside the coefficients (no check); the constructor from views passes only two extents to the rank-3 view of coefficients and so writes outside of it (for fewer than 4 splines whatever the third extent, otherwise if it is less than the number of splines)."},
  {"property": "C83", "status": "partial", "theorems": ["C83_arguments_partial", "C83_output_partial", "C83_strided_refuted", "C83_output_strided_refuted"], "note": "Proved for C-contiguous arrays of any shape (inputs of compute_node_energies_forces, output of CubicSplineSet.evaluate). Refuted for every other array with distinct numbers in memory: py::array_t without c_style accepts any strides but the bindings use data() and size(); for outputs other memory is overwritten."},
  {"property": "C84", "status": "partial", "theorems": ["C84_attributes_partial", "C84_remainder_refuted"], "note": "Proved: setting then reading gives the elements, in row-major order for the kernels, whatever the previous extents, if the length is a multiple of the row size; in general the whole rows. Refuted: an array that is not a multiple is not refused; the remainder is lost silently (integer division)."},
  {"property": "C85", "status": "proved", "theorems": ["C85_cover_energies"], "note": "for real arithmetic; any covering map between inputs"},
  {"property": "C86", "status": "proved", "theorems": ["C86_renumbering", "C86_fold_forces", "C86_supercell"], "note": "for real arithmetic, at points where the model is smooth"},
  {"property": "C87", "status": "partial", "theorems": ["C87_ase_renumbering_partial", "C87_ase_supercell_partial", "C87_ase_isolated_refuted"], "note": "proved when the last atom has a neighbour in both numberings; without that the energy depends on the numbering (refuted by a dimer with an isolated atom in the middle or at the end), because isolated atoms at the end are dropped (C44)"},
  {"property": "C88", "status": "proved", "theorems": ["C88_message_size", "C88_message_size_kokkos"], "note": "CPU and Kokkos style; for every scalar type"},
  {"property": "C89", "status": "proved", "theorems": ["C89_ase_lammps", "C89_ase_lammps_mpi", "C89_ase_lammps_no_mpi"], "note": "The ASE calculator (a neighbour list with one entry per pair and image) and the pair style (local atoms and ghosts) are related by same_structure; the virial of LAMMPS is -V times the stress. Proviso as stated: the last atom has a neighbour (otherwise C44_trailing_isolated_refuted applies) and the tables are smooth at the distances (C01's condition)."},
  {"property": "C90", "status": "partial", "theorems": ["C90_int_arithmetic_partial", "C90_int_overflow_refuted"], "note": "Refuted: M1_grad.resize(num_nodes*num_channels*num_lm*num_channels) in compute_M1 overflows int at 8192 atoms with 128 channels and l_max = 3, although no array has more than 2^26 entries in use. The partial theorem shows that this product is the only exception: under the stated size bounds the evaluation is free of overflow if and only if that product is below 2^31."},
  {"property": "C91", "status": "proved", "theorems": ["C91_ase_kokkos_lammps", "C91_ase_kokkos_no_mpi", "C91_ase_kokkos_mpi"], "note": "All three modes of the Kokkos pair style. Combined from C89 and C59, C61, C62."},
  {"property": "C92", "status": "proved", "theorems": ["C92_kokkos_mpi_gradients", "C92_kokkos_no_mpi_gradients"], "note": "Every outcome, at the given and at all nearby displaced or strained positions; serial mode: C60. Fixed neighbour lists, no pair at the cutoff, energy (and virial) requested."},
  {"property": "C93", "status": "proved", "theorems": ["C93_export_loads_in_kokkos", "C93_kokkos_export", "C93_kokkos_export_serial", "C93_kokkos_export_mpi", "C93_kokkos_export_no_mpi"], "note": "Exported files load in the Kokkos evaluator; energies, edge forces, forces and virial of the evaluator and of the pair style in its three modes are those of the PyTorch model with interpolated radial functions, every schedule."},
  {"property": "C94", "status": "proved", "theorems": ["C94_kokkos_rotation", "C94_kokkos_rigid_motion", "C94_kokkos_mpi_rigid_motion", "C94_kokkos_no_mpi_rigid_motion"], "note": "Evaluator and the three modes of the pair style, every outcome; equivariance of the tables of the file is a hypothesis as in C74, C78."},
  {"property": "C95", "status": "proved", "theorems": ["C95_kokkos_export_ase"], "note": "Every outcome; the last atom must have a neighbour (C44), and 'energies' may have further zero entries (C48)."}
]}
