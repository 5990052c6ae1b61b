{"id": "C01", "title": "Edge forces are the exact negative gradient of the total energy", "statement": "After MACE.compute_node_energies_forces, node_forces[3*ij+a] equals minus the partial derivative, with respect to component a of the edge vector xyz[ij], of the sum of node_energies, where r[ij] is the length of xyz[ij]. This includes the ZBL term, both message-passing layers, the density normalisation of A0/A1, the product bases and both readouts.", "quantifier": "every well-formed model file, every number of nodes, every neighbour list (any num_neigh, neigh_indices, neigh_types), every configuration of edge vectors with non-zero lengths inside the spline domain, every edge and every Cartesian component", "why_tests_cant": "The test-suite compares forces with finite differences on a handful of fixed geometries of one model; a missing or mis-indexed adjoint term can vanish or be within tolerance there, and the claim ranges over a continuum of inputs and all model shapes.", "anchors": ["libsymmetrix/source/mace.cpp: MACE::compute_node_energies_forces", "libsymmetrix/source/mace.cpp: MACE::reverse_A0, reverse_A0_scaled, reverse_M0, reverse_H1, reverse_Phi1, reverse_A1, reverse_A1_scaled, reverse_M1, reverse_H2, compute_readouts", "libsymmetrix/source/zbl.cpp: ZBL::compute_ZBL"]}
{"id": "C02", "title": "ASE forces are minus the gradient of the ASE energy", "statement": "The 'forces' returned by the Symmetrix ASE calculator are the negative derivative of the returned 'energy' with respect to every atomic coordinate, for a fixed neighbour list.", "quantifier": "every set of atoms, every neighbour list containing any number of periodic images and self-images, every atom and component", "why_tests_cant": "Finite-difference tests use a few structures; the claim is about the index gymnastics (bincount by i_list and j_list) for every list, including atoms that neighbour their own images.", "anchors": ["symmetrix/source/symmetrix/symmetrix_calc.py: Symmetrix.calculate"]}
{"id": "C03", "title": "LAMMPS forces are minus the gradient of the LAMMPS energy", "statement": "In pair_style symmetrix/mace no_domain_decomposition, the increments added to atom->f are the negative derivatives of the increment of eng_vdwl with respect to the atom positions (ghost images move with their owners), for a fixed neighbour list.", "quantifier": "every set of local atoms, every LAMMPS neighbour list order (any ilist permutation), every ghost-to-owner map, every atom and component", "why_tests_cant": "LAMMPS tests run fixed boxes on one rank; the property depends on arbitrary ilist orders and ghost maps.", "anchors": ["pair_symmetrix/pair_symmetrix_mace.cpp: PairSymmetrixMACE::compute_no_domain_decomposition", "libsymmetrix/source/mace.cpp: MACE::compute_node_energies_forces"]}
{"id": "C04", "title": "Evaluation does not depend on earlier evaluations", "statement": "The node_energies and node_forces produced by MACE.compute_node_energies_forces depend only on the model file and on the arguments of that call, not on which calls (with which sizes) were made on the same object before. This holds bit-for-bit for floating point.", "quantifier": "every history of previous calls, i.e. every content and length of every internal buffer, every well-formed input, every arithmetic (including IEEE doubles with NaN)", "why_tests_cant": "A test can only try some call sequences; stale-buffer bugs need a specific larger/smaller system sequence.", "anchors": ["libsymmetrix/source/mace.cpp: MACE::compute_node_energies_forces and all stages", "libsymmetrix/source/mace.hpp: class MACE"]}
{"id": "C05", "title": "No out-of-bounds access on well-formed input", "statement": "For a model file whose arrays have the documented sizes and a consistent neighbour list, no step of MACE.compute_node_energies_forces reads or writes outside the vectors it uses, so the call returns normally; in particular it never throws or invokes undefined behaviour.", "quantifier": "every well-formed model, every system size including zero atoms and zero neighbours, every distance in the spline domain", "why_tests_cant": "Sanitizers only check executed runs; index arithmetic must be right for every l_max, L_max, channel count, path list and neighbour list.", "anchors": ["libsymmetrix/source/mace.cpp: all compute_*/reverse_* functions", "libsymmetrix/source/cubic_spline_set.cpp: CubicSplineSet::evaluate_derivs", "libsymmetrix/source/multivariate_polynomial.cpp: MultivariatePolynomial::evaluate_gradient"]}
{"id": "C06", "title": "Disconnected subsystems do not influence each other", "statement": "Evaluating the concatenation of two systems (second system's neighbour indices shifted) returns the concatenation of the node energies and edge forces obtained by evaluating each of them alone, bit-for-bit.", "quantifier": "every pair of well-formed systems (any sizes, including empty) and every model, every arithmetic", "why_tests_cant": "Requires reasoning about all offsets into flat buffers for every split point; tests can only sample.", "anchors": ["libsymmetrix/source/mace.cpp: MACE::compute_node_energies_forces"]}
{"id": "C07", "title": "Results do not depend on neighbour order", "statement": "Permuting the neighbours within any node's neighbour segment leaves all node energies unchanged and permutes the edge forces accordingly (in exact arithmetic).", "quantifier": "every permutation of every node's neighbour segment, every system and model", "why_tests_cant": "The number of permutations is factorial in the neighbour count; the statement quantifies over all.", "anchors": ["libsymmetrix/source/mace.cpp: compute_A0, compute_A0_scaled, compute_Phi1, compute_A1_scaled, reverse_A0, reverse_Phi1"]}
{"id": "C08", "title": "Edges on which every radial function vanishes are inert", "statement": "Adding to the neighbour list an edge at a distance where all radial splines, density splines and the ZBL envelope (and their derivatives) are zero changes no node energy and no force on the other edges, and the force on the new edge is zero (in exact arithmetic).", "quantifier": "every system, every model, every position at which such an edge is inserted, every edge vector", "why_tests_cant": "This is what makes neighbour-list skin safe; a test can only insert a few such edges.", "anchors": ["libsymmetrix/source/mace.cpp: compute_node_energies_forces", "libsymmetrix/source/zbl.cpp: ZBL::compute_envelope"]}
{"id": "C09", "title": "Energy of an atom without neighbours", "statement": "An atom with no neighbours that is nobody's neighbour gets the same energy in every system: a value that depends only on its species (and the model), so that isolated atoms of a species always contribute the same constant.", "quantifier": "every system containing an isolated atom, every position of the atom in the node ordering, every model", "why_tests_cant": "Must hold for every surrounding system and ordering.", "anchors": ["libsymmetrix/source/mace.cpp: compute_A0, compute_M0, compute_readouts"]}
{"id": "C10", "title": "Species-pair tables are addressed consistently", "statement": "The radial table selected for an ordered species pair (a,b) is the same as for (b,a), lies inside the table list of n(n+1)/2 entries, different unordered pairs select different tables and every table is selected by some pair; this order is the order in which the exporter writes tables.", "quantifier": "every number of species n and every pair of species", "why_tests_cant": "Tests cover the one or two species of the sample models only.", "anchors": ["libsymmetrix/source/mace.cpp: compute_R0, compute_R1, compute_A0_scaled", "symmetrix/source/symmetrix/extract_mace_data.py: species pair loop"]}
{"id": "C11", "title": "Cubic spline interpolates its nodal data", "statement": "CubicSpline(h, values, derivs) evaluated at node i*h returns values[i], and its reported derivative there is derivs[i], for every node inside the domain, and the left limits at interior nodes agree.", "quantifier": "every spacing h>0, every number of nodes >= 2, every nodal data, every node", "why_tests_cant": "A continuum of nodal data.", "anchors": ["libsymmetrix/source/cubic_spline.cpp: CubicSpline::generate_coefficients, evaluate, evaluate_deriv"]}
{"id": "C12", "title": "Spline derivatives are the derivatives of the spline, including across knots", "statement": "At every r in the open domain the second component of evaluate_deriv is the mathematical derivative of evaluate, so the spline is continuously differentiable across knots; the same holds for every spline of a CubicSplineSet.", "quantifier": "every r in (0,(n-1)h) including knots, every h>0, all nodal data", "why_tests_cant": "Differentiability is a limit statement over a continuum; tests check a few points with finite differences.", "anchors": ["libsymmetrix/source/cubic_spline.cpp: CubicSpline::evaluate_deriv", "libsymmetrix/source/cubic_spline_set.cpp: CubicSplineSet::evaluate_derivs"]}
{"id": "C13", "title": "All spline evaluators agree", "statement": "evaluate, evaluate_deriv and evaluate_deriv_divided return the same value; the divided derivative times r is the derivative; spline j of a CubicSplineSet returns the same value and derivative as a CubicSpline built from row j.", "quantifier": "every r in the domain, every data set, every spline index j", "why_tests_cant": "Equality over all inputs; tests sample.", "anchors": ["libsymmetrix/source/cubic_spline.cpp", "libsymmetrix/source/cubic_spline_set.cpp: CubicSplineSet::CubicSplineSet, evaluate, evaluate_derivs"]}
{"id": "C14", "title": "Spline domain guard", "statement": "CubicSpline evaluation throws exactly when r is outside [0,(n-1)h), and never reads outside its coefficient array.", "quantifier": "every real r (negative, zero, at the last node, beyond), every n>=2 and h>0", "why_tests_cant": "Boundary behaviour over a continuum; the only tests are inside the domain.", "anchors": ["libsymmetrix/source/cubic_spline.cpp: CubicSpline::evaluate", "libsymmetrix/source/cubic_spline_set.cpp: CubicSplineSet::evaluate"]}
{"id": "C15", "title": "Polynomial evaluation is correct", "statement": "MultivariatePolynomial(n, c, m).evaluate(x) equals the sum over i of c[i] times the product of x[m[i][j]], whenever the monomials are pairwise distinct, non-empty and only use variables below n; evaluate_simple computes the same value.", "quantifier": "every number of variables, every set of monomials of every degree, all coefficients, all x, every tie-breaking of the unstable sort used by the constructor", "why_tests_cant": "Unbounded family of polynomials and evaluation graphs.", "anchors": ["libsymmetrix/source/multivariate_polynomial.cpp: MultivariatePolynomial::MultivariatePolynomial, evaluate, evaluate_simple"]}
{"id": "C16", "title": "Polynomial gradient is correct", "statement": "evaluate_gradient(x) returns evaluate(x) together with the vector of partial derivatives of the polynomial; evaluate_gradient_simple returns the same.", "quantifier": "every polynomial as in C15, every x, every variable", "why_tests_cant": "Unbounded family of evaluation graphs; reverse accumulation must be right for shared and squared factors.", "anchors": ["libsymmetrix/source/multivariate_polynomial.cpp: MultivariatePolynomial::evaluate_gradient, backward_pass, evaluate_gradient_simple"]}
{"id": "C17", "title": "Batched polynomial evaluation equals row-wise evaluation", "statement": "evaluate_batch(x, b) returns, for row j, exactly what evaluate_gradient returns for row j of x.", "quantifier": "every batch size b>=0, every polynomial, all rows, every arithmetic", "why_tests_cant": "All batch sizes and graphs.", "anchors": ["libsymmetrix/source/multivariate_polynomial.cpp: MultivariatePolynomial::evaluate_batch and batched_* functions"]}
{"id": "C18", "title": "Polynomial objects can be reused in any order", "statement": "The result of evaluate, evaluate_gradient and evaluate_batch does not depend on which of these methods were called on the same object before, with whatever batch sizes.", "quantifier": "every history of calls", "why_tests_cant": "Histories are unbounded.", "anchors": ["libsymmetrix/source/multivariate_polynomial.cpp: evaluate, evaluate_gradient, evaluate_batch"]}
{"id": "C19", "title": "The polynomial constructor terminates and builds a valid evaluation graph", "statement": "Construction terminates; the graph's nodes are pairwise distinct, contain every variable and every monomial, every non-variable node is the product of two nodes that precede it, and num_auxiliary_nodes is the number of nodes that are neither variables nor monomials. The graph depends on the monomials only, not on the coefficients.", "quantifier": "every number of variables and every finite list of non-empty monomials over them, every tie-breaking of std::sort", "why_tests_cant": "Unbounded inputs; the constructor mutates a set while iterating over it.", "anchors": ["libsymmetrix/source/multivariate_polynomial.cpp: MultivariatePolynomial::MultivariatePolynomial", "libsymmetrix/source/tools.cpp: _two_part_partitions"]}
{"id": "C20", "title": "Repeated monomials are summed", "statement": "If a monomial occurs several times in the input, evaluate and evaluate_gradient treat the polynomial as the sum of all terms, as evaluate_simple does.", "quantifier": "every list of terms including repetitions", "why_tests_cant": "Needs all term lists; the tests never repeat a monomial.", "anchors": ["libsymmetrix/source/multivariate_polynomial.cpp: MultivariatePolynomial::MultivariatePolynomial (map.insert), evaluate_simple"]}
{"id": "C21", "title": "MLP evaluation computes the network function", "statement": "MultilayerPerceptron.evaluate and the value part of evaluate_gradient compute W_L s(W_{L-1} ... s(W_1 x)) with s(x)=scale*x/(1+exp(-x)).", "quantifier": "every layer shape, weights, scale, input", "why_tests_cant": "Unbounded shapes and a continuum of inputs.", "anchors": ["libsymmetrix/source/multilayer_perceptron.cpp: MultilayerPerceptron::evaluate, evaluate_gradient"]}
{"id": "C22", "title": "MLP gradient is the Jacobian", "statement": "evaluate_gradient returns the exact Jacobian d output[o] / d input[k] in row-major order.", "quantifier": "every layer shape with at least two layers, weights, scale, input, output and input index", "why_tests_cant": "Derivative statement over a continuum and all shapes.", "anchors": ["libsymmetrix/source/multilayer_perceptron.cpp: MultilayerPerceptron::evaluate_gradient"]}
{"id": "C23", "title": "MLP batches equal row-wise evaluation", "statement": "evaluate_batch and evaluate_gradient_batch return for every row exactly what evaluate and evaluate_gradient return for it.", "quantifier": "every batch size, shape, weights, rows", "why_tests_cant": "All batch sizes and shapes.", "anchors": ["libsymmetrix/source/multilayer_perceptron.cpp: evaluate_batch, evaluate_gradient_batch"]}
{"id": "C24", "title": "MLP objects can be reused in any order", "statement": "Results of the MLP methods do not depend on earlier calls on the same object (single or batched, any batch size).", "quantifier": "every history, every arithmetic", "why_tests_cant": "Unbounded histories.", "anchors": ["libsymmetrix/source/multilayer_perceptron.cpp"]}
{"id": "C25", "title": "ZBL gradient is the derivative of the ZBL energy", "statement": "ZBL.compute_gradient(Zu,Zv,r) is the derivative of ZBL.compute(Zu,Zv,r) with respect to r, including at the cutoff r_max.", "quantifier": "every r>0, all species, all parameters with p>=2", "why_tests_cant": "Derivative statement over a continuum; the cutoff point is where tests rarely land.", "anchors": ["libsymmetrix/source/zbl.cpp: ZBL::compute, compute_gradient, compute_envelope, compute_envelope_gradient"]}
{"id": "C26", "title": "ZBL has compact support and joins zero smoothly", "statement": "ZBL energy and gradient are exactly zero for r >= r_max, the envelope is 1 at r=0, lies in [0,1], is monotonically decreasing, and energy and gradient are continuous at r_max.", "quantifier": "every r, every p>=2, every r_max>0", "why_tests_cant": "Continuum statement.", "anchors": ["libsymmetrix/source/zbl.cpp: ZBL::compute_envelope, compute_envelope_gradient"]}
{"id": "C27", "title": "ZBL is symmetric and repulsive", "statement": "ZBL.compute(Zu,Zv,r)=ZBL.compute(Zv,Zu,r) and it is non-negative for non-negative coefficients; the force never attracts.", "quantifier": "all species pairs, all r>0, all parameters with non-negative c", "why_tests_cant": "Continuum statement.", "anchors": ["libsymmetrix/source/zbl.cpp: ZBL::compute, compute_gradient"]}
{"id": "C28", "title": "ZBL accumulation touches only its own node and edge", "statement": "compute_ZBL adds to node i's energy the sum of the pair energies of its edges, adds to edge ij's force minus the gradient along the edge vector, and leaves every other entry unchanged.", "quantifier": "every neighbour list and every initial content of the arrays", "why_tests_cant": "All neighbour lists.", "anchors": ["libsymmetrix/source/zbl.cpp: ZBL::compute_ZBL"]}
{"id": "C29", "title": "_partitions enumerates every set partition exactly once", "statement": "For non-empty v, _partitions(v) contains each partition of the positions of v into non-empty blocks exactly once (in order of block count) and nothing else.", "quantifier": "every non-empty vector v and every tie-breaking of std::sort", "why_tests_cant": "Bell-number growth; tests check tiny sizes.", "anchors": ["libsymmetrix/source/tools.cpp: _partitions"]}
{"id": "C30", "title": "_two_part_partitions enumerates every split into two non-empty parts exactly once", "statement": "_two_part_partitions(v) lists each split of v into two non-empty sub-sequences exactly once up to swapping the parts: 2^(n-1)-1 entries, each part keeping the order of v.", "quantifier": "every vector v", "why_tests_cant": "Exponential growth; tests check tiny sizes.", "anchors": ["libsymmetrix/source/tools.cpp: _two_part_partitions"]}
{"id": "C31", "title": "_permutations enumerates all permutations in lexicographic order", "statement": "_permutations(n) returns each of the n! permutations of 0..n-1 exactly once, in strictly increasing lexicographic order.", "quantifier": "every n>=0", "why_tests_cant": "Factorial growth.", "anchors": ["libsymmetrix/source/tools.cpp: _permutations"]}
{"id": "C32", "title": "_product, _product_repeat, _generate_indices and _combinations enumerate exactly the right tuples", "statement": "_product(inputs) lists, once per choice of positions, every tuple taking one element from each input, last index fastest; _generate_indices(d,m) is every d-tuple below m exactly once; _combinations(s,2) is every pair of positions i<j once and every other k is rejected.", "quantifier": "all inputs", "why_tests_cant": "Unbounded inputs.", "anchors": ["libsymmetrix/source/tools.hpp: _product", "libsymmetrix/source/tools.cpp: _product_repeat, _generate_indices, _combinations"]}
{"id": "C33", "title": "_binomial_coefficient is n choose k", "statement": "_binomial_coefficient(n,k) = n!/(k!(n-k)!) for 0<=k<=n and 0 otherwise, and it terminates, provided the result fits an int.", "quantifier": "all integers n,k", "why_tests_cant": "Infinite domain.", "anchors": ["libsymmetrix/source/tools.cpp: _binomial_coefficient"]}
{"id": "C34", "title": "Complex spherical harmonics obey the conjugation symmetry and preserve norm", "statement": "sphericart_complex satisfies C[l,-m] = (-1)^m conj(C[l,m]) and the sum over m of |C[l,m]|^2 equals the sum of squares of the real harmonics, and agrees entry by entry with the single-harmonic function sphericart_sph_harm.", "quantifier": "every l_max, every sample, every l and m, whatever the real harmonics are", "why_tests_cant": "All l_max and samples.", "anchors": ["libsymmetrix/source/spherical_harmonic.cpp: sphericart_complex, sphericart_sph_harm"]}
{"id": "C35", "title": "Angular features and their gradients use one consistent axis convention", "statement": "compute_Y returns, for each edge, 2*sqrt(pi) times the real spherical harmonics of the cyclically permuted vector, and Y_grad is exactly the gradient of that quantity with respect to the unpermuted x,y,z, in x,y,z order.", "quantifier": "every l_max, number of edges and edge vectors, given that the sphericart library returns gradients of its own harmonics", "why_tests_cant": "Continuum statement; a wrong permutation is invisible on symmetric geometries.", "anchors": ["libsymmetrix/source/mace.cpp: MACE::compute_Y"]}
{"id": "C36", "title": "sph_harm_xyz agrees with sph_harm at the vector's spherical angles", "statement": "sph_harm_xyz(l,m,x,y,z) equals sph_harm at polar angle acos(z/r) and an azimuth phi with x = rho cos(phi), y = rho sin(phi).", "quantifier": "every vector off the z axis", "why_tests_cant": "Fails only on a measure-zero half plane that random tests never hit.", "anchors": ["libsymmetrix/source/spherical_harmonic.cpp: sph_harm_xyz, real_sph_harm_xyz"]}
{"id": "C37", "title": "Forces conserve momentum", "statement": "The increments to all atomic forces made by one compute call of the LAMMPS pair style (local plus ghost, before reverse communication) sum to zero, and the ASE forces sum to zero.", "quantifier": "every neighbour list, ghost map and edge force values", "why_tests_cant": "All neighbour lists.", "anchors": ["pair_symmetrix/pair_symmetrix_mace.cpp: compute_no_domain_decomposition, compute_mpi_message_passing, compute_no_mpi_message_passing", "symmetrix/source/symmetrix/symmetrix_calc.py: calculate"]}
{"id": "C38", "title": "Stress and virial are strain derivatives of the energy", "statement": "The LAMMPS virial increments are minus the derivative of the energy under homogeneous strain of the edge vectors, and the ASE 'stress' is that derivative divided by the volume.", "quantifier": "every system, every strain component", "why_tests_cant": "Derivative statement over a continuum.", "anchors": ["pair_symmetrix/pair_symmetrix_mace.cpp: virial accumulation in the compute_* functions", "symmetrix/source/symmetrix/symmetrix_calc.py: calculate"]}
{"id": "C39", "title": "Distributed evaluation gives the serial result", "statement": "mpi_message_passing on any number of ranks, with ghost atoms consistent with their owners, yields the same per-atom energies and, after reverse communication, the same atomic forces as a single-process evaluation of the whole system; no_mpi_message_passing does too.", "quantifier": "every partition of the atoms over ranks, every ghost layout, every neighbour list, every order of the local atoms satisfying the stated requirement", "why_tests_cant": "Schedules and decompositions are unbounded; CI runs one or two ranks.", "anchors": ["pair_symmetrix/pair_symmetrix_mace.cpp: compute_mpi_message_passing, compute_no_mpi_message_passing, pack_forward_comm, unpack_forward_comm, pack_reverse_comm, unpack_reverse_comm"]}
{"id": "C40", "title": "pair_coeff maps LAMMPS types to model species", "statement": "After a successful pair_coeff, LAMMPS type t is evaluated with the model species whose atomic number is that of the t-th element symbol; unknown symbols and elements absent from the model are rejected.", "quantifier": "every list of symbols, every model", "why_tests_cant": "All symbol lists; the Kokkos and CPU styles differ in error paths that tests do not take.", "anchors": ["pair_symmetrix/pair_symmetrix_mace.cpp: PairSymmetrixMACE::coeff", "pair_symmetrix/pair_symmetrix_mace_kokkos.cpp: coeff"]}
{"id": "C41", "title": "pair_style arguments select the mode", "statement": "pair_style accepts no argument or exactly one of the three mode names and rejects everything else; the default mode depends only on the number of ranks as documented in code.", "quantifier": "every argument vector", "why_tests_cant": "All argument vectors.", "anchors": ["pair_symmetrix/pair_symmetrix_mace.cpp: PairSymmetrixMACE::settings"]}
{"id": "C42", "title": "Ghost communication transports features and accumulates adjoints", "statement": "Forward communication makes every ghost's features equal to its owner's and leaves others unchanged; reverse communication adds each ghost's adjoint to its owner's exactly once.", "quantifier": "every send list, every buffer content", "why_tests_cant": "All send lists; device/host mirror behaviour differs by platform.", "anchors": ["pair_symmetrix/pair_symmetrix_mace.cpp: pack_forward_comm, unpack_forward_comm, pack_reverse_comm, unpack_reverse_comm", "pair_symmetrix/pair_symmetrix_mace_kokkos.cpp: pack_forward_comm_kokkos, unpack_forward_comm_kokkos, unpack_reverse_comm"]}
{"id": "C43", "title": "Per-atom energies are attributed to the right atom", "statement": "With per-atom energy requested, eatom of each local atom is increased by that atom's node energy.", "quantifier": "every neighbour-list order (ilist permutation)", "why_tests_cant": "LAMMPS usually supplies the identity order, so tests pass even when the indexing is wrong.", "anchors": ["pair_symmetrix/pair_symmetrix_mace.cpp: eatom writes", "pair_symmetrix/pair_symmetrix_mace_kokkos.cpp: eatom writes"]}
{"id": "C44", "title": "The ASE calculator evaluates every atom", "statement": "The ASE 'energy' is the sum over all atoms, and 'energies' has one entry per atom.", "quantifier": "every structure, including those with isolated atoms and with no pairs at all", "why_tests_cant": "Depends on which atom is isolated; tests use connected structures.", "anchors": ["symmetrix/source/symmetrix/symmetrix_calc.py: calculate"]}
{"id": "C45", "title": "Kokkos splines reject out-of-range distances without out-of-bounds reads", "statement": "CubicSplineKokkos.evaluate, evaluate_deriv and evaluate_deriv_divided never read outside the coefficient array, for every r.", "quantifier": "every r, every coefficient count", "why_tests_cant": "Boundary intervals only.", "anchors": ["libsymmetrix/source/cubic_spline_kokkos.cpp: evaluate, evaluate_deriv, evaluate_deriv_divided"]}
{"id": "C46", "title": "Folding embedding weights into the radial tables preserves the first-layer features", "statement": "The Kokkos evaluator's first-layer features computed from radial tables with H0 and A0 weights folded in equal those of the CPU evaluator.", "quantifier": "every model, every neighbour list (exact arithmetic)", "why_tests_cant": "All models; tests compare one model to 1e-?? tolerances.", "anchors": ["libsymmetrix/source/mace_kokkos.cpp: load_from_json (R0 fusion), compute_R0, compute_A0", "libsymmetrix/source/mace.cpp: compute_A0"]}
{"id": "C47", "title": "Parallel polynomial kernels are schedule independent", "statement": "The Kokkos product-basis kernel gives the same features and adjoints as the CPU evaluator for every interleaving of its atomic accumulations.", "quantifier": "every schedule (order of atomic additions), every polynomial", "why_tests_cant": "Schedules are unbounded.", "anchors": ["libsymmetrix/source/mace_kokkos.cpp: compute_M0, reverse_M0, compute_M1, reverse_M1", "libsymmetrix/source/multivariate_polynomial_kokkos.cpp"]}
{"id": "C48", "title": "Per-atom result arrays have one entry per atom", "statement": "After an evaluation with the Kokkos evaluator, node_energies has exactly num_nodes entries.", "quantifier": "every history of system sizes", "why_tests_cant": "Needs a history with a larger system first.", "anchors": ["libsymmetrix/source/mace_kokkos.cpp: compute_node_energies_forces", "symmetrix/source/symmetrix/symmetrix_calc.py: calculate"]}
{"id": "C49", "title": "Exported coupling indices are in range and collision free", "statement": "The (l,m,path) and (path,m1,m2) flat indices written by the exporter lie in the ranges the evaluator allocates, and different index triples get different flat indices.", "quantifier": "every l_max and every list of coupling paths sorted by l", "why_tests_cant": "All path lists.", "anchors": ["symmetrix/source/symmetrix/extract_mace_data.py: compute_lme, compute_lelm1lm2", "libsymmetrix/source/mace.cpp: compute_Phi1, compute_A1"]}
{"id": "C50", "title": "ZBL energy is the published screened-Coulomb formula", "statement": "Inside the cutoff ZBL.compute(Zu,Zv,r) equals 1/2 * 14.3996*Zu*Zv/r * phi(r/a) * envelope with the four universal screening exponents -3.2, -0.9423, -0.4028, -0.2016, a = a_prefactor*0.529/(Zu^a_exp+Zv^a_exp) and the polynomial envelope of order p in r/(R_u+R_v).", "quantifier": "all species pairs, all parameters with p>=2, every r with 0<r<R_u+R_v", "why_tests_cant": "A test samples a few distances; a wrong constant or exponent can hide behind tolerances or vanish at the sampled species.", "anchors": ["libsymmetrix/source/zbl.cpp: ZBL::compute, compute_envelope", "libsymmetrix/source/zbl.hpp: c_exps, v_prefactor"]}
{"id": "C51", "title": "ASE energies and forces do not need a periodic cell", "statement": "The ASE calculator returns energy and forces for every structure, also for molecules without a three-dimensional cell, and these results do not depend on the volume.", "quantifier": "every structure with pairs, with or without a cell", "why_tests_cant": "Every test structure has a cell; the claim is about all structures and all volumes.", "anchors": ["symmetrix/source/symmetrix/symmetrix_calc.py: calculate"]}
{"id": "C52", "title": "sph_harm obeys the conjugation symmetry and is the complex form of real_sph_harm", "statement": "sph_harm(l,-m) = (-1)^m conj(sph_harm(l,m)), and if sphericart's real harmonics of degree l at a point equal real_sph_harm at some angles then sphericart_sph_harm at that point equals sph_harm at those angles for every order: the two pairs of functions use the same change of basis and phase convention.", "quantifier": "every l, every -l <= m <= l, every pair of angles", "why_tests_cant": "All degrees, orders and angles; negative orders go through separate branches with their own normalisation factors.", "anchors": ["libsymmetrix/source/spherical_harmonic.cpp: sph_harm, real_sph_harm, sphericart_sph_harm"]}
{"id": "C53", "title": "In the distributed modes the forces, summed over all copies of an atom, are minus the gradient of the total energy", "statement": "In pair_style symmetrix/mace with mpi_message_passing or no_mpi_message_passing, the increments of the forces on an atom and on all its ghosts, summed over all processes (what LAMMPS does with newton on), are minus the derivative of the sum over the processes of the increments of eng_vdwl with respect to the position of that atom, all its copies moving along.", "quantifier": "every number of processes, every assignment of the atoms to the processes, every ghost set and message plan, every number of earlier steps, every atom and component", "why_tests_cant": "The number of ways to split a box is unbounded, and a derivative is a statement about a continuum of positions.", "anchors": ["pair_symmetrix/pair_symmetrix_mace.cpp: compute_mpi_message_passing, compute_no_mpi_message_passing", "libsymmetrix/source/mace.cpp: reverse_A1, reverse_H1, reverse_A0"]}
{"id": "C54", "title": "The Kokkos evaluator gives the energies and forces of the CPU evaluator", "statement": "After MACEKokkos::compute_node_energies_forces the first num_nodes entries of node_energies and the first 3*num_pairs entries of node_forces are exactly the node_energies and node_forces of MACE::compute_node_energies_forces on the same model file and the same arguments; no interleaving of the threads has a data race, an access outside of a view, or any other undefined behaviour.", "quantifier": "every model file whose monomials have at most three factors and whose radial tables share their knots, every neighbour list within the domain of the tables, every earlier sequence of evaluations on the same object, every interleaving of all parallel kernels, every content of uninitialised memory (exact arithmetic)", "why_tests_cant": "Interleavings, histories and models are unbounded; races need not show in a test.", "anchors": ["libsymmetrix/source/mace_kokkos.cpp: compute_node_energies_forces and all kernels, load_from_json", "libsymmetrix/source/mace.cpp: compute_node_energies_forces"]}
{"id": "C55", "title": "Every execution of the Kokkos evaluator comes to an end", "statement": "Whatever the scheduler does, an evaluation with MACEKokkos makes only finitely many steps, never gets stuck, and always ends with the same contents of all views.", "quantifier": "every model file, neighbour list and history as in C54, every schedule", "why_tests_cant": "Termination under every schedule is not observable by finitely many runs.", "anchors": ["libsymmetrix/source/mace_kokkos.cpp: compute_node_energies_forces"]}
{"id": "C56", "title": "The Kokkos evaluator loads every model file that the CPU evaluator loads", "statement": "If MACE::load_from_json succeeds on a well-formed model file then so does MACEKokkos::load_from_json.", "quantifier": "every well-formed model file", "why_tests_cant": "Tests use correlation order 3 only; the exporter accepts any.", "anchors": ["libsymmetrix/source/mace_kokkos.cpp: load_from_json (M0_monomials, M1_monomials tables with 3 columns)", "symmetrix/source/symmetrix/extract_mace_data.py: correlation"]}
{"id": "C57", "title": "The ASE calculator gives the same results with either evaluator", "statement": "Symmetrix(model, use_kokkos=True), the default, returns the same 'energy', 'forces' and 'stress' as Symmetrix(model, use_kokkos=False) for a structure with at least one pair in a cell with a volume, whatever was calculated before on either calculator (calls that raised an exception included) and however the threads of the Kokkos kernels are scheduled. 'energies' agrees on the evaluated atoms and is followed by zeros up to the size of the largest structure seen so far.", "quantifier": "for all well-formed model files (tables uniform, correlation at most 3), all histories of structures, all structures, all executions", "why_tests_cant": "The Kokkos views only grow and are reused: a result depends, potentially, on every earlier structure and on the interleaving of the threads; tests run a few structures under one schedule.", "anchors": ["symmetrix/source/symmetrix/symmetrix_calc.py:72-102", "symmetrix/source/cpp/mace_kokkos.cpp:15-55", "libsymmetrix/source/mace_kokkos.cpp:50-110"]}
{"id": "C58", "title": "With the Kokkos evaluator, ASE forces and stress are derivatives of the ASE energy", "statement": "For the ASE calculator with the Kokkos evaluator, component p of 'forces' is minus the derivative of 'energy' with respect to coordinate p of the atoms, and volume times 'stress' contracted with a symmetric strain is the derivative of 'energy' along that strain, whatever was calculated before and however the threads are scheduled.", "quantifier": "for all well-formed model files, structures away from coincident atoms and from zero densities, histories, executions", "why_tests_cant": "Finite differences sample few points, with errors of the size of a wrong factor in a small term; a race shows only under some schedules.", "anchors": ["symmetrix/source/symmetrix/symmetrix_calc.py:83-102", "libsymmetrix/source/mace_kokkos.cpp:50-110"]}
{"id": "C59", "title": "The Kokkos pair style computes what the CPU pair style computes", "statement": "In mode no_domain_decomposition the Kokkos pair style and the CPU pair style, given the same model, commands, atoms and neighbour list, add the same energy, virial and forces, whatever was computed before with either of them and however the threads are scheduled; no data race or other undefined behaviour occurs; the energy of atom i is added to entry i of the array of per-atom energies.", "quantifier": "for all well-formed model files, pair_coeff arguments, atoms, neighbour lists in any order, flags, contents of the accumulators, histories, executions", "why_tests_cant": "The neighbour list happens to be in the order of the atoms in every test; schedules and histories cannot be enumerated.", "anchors": ["pair_symmetrix/pair_symmetrix_mace_kokkos.cpp:373-585", "pair_symmetrix/pair_symmetrix_mace.cpp:242-375"]}
{"id": "C60", "title": "Forces and virial of the Kokkos pair style are derivatives of its energy", "statement": "In mode no_domain_decomposition with a neighbour list in the order of the atoms, what the Kokkos pair style adds to the force on a local atom is minus the derivative of what it adds to the energy with respect to the position of the atom (all images moving along), and the derivative of the energy along a symmetric strain is minus the contraction of the strain with what is added to the virial; in every execution and after every history.", "quantifier": "for all well-formed model files, configurations away from the cutoff, coincident atoms and zero densities, histories, executions", "why_tests_cant": "Finite differences sample few points; a race shows only under some schedules.", "anchors": ["pair_symmetrix/pair_symmetrix_mace_kokkos.cpp:373-585"]}
{"id": "C61", "title": "The Kokkos pair style with ghost features recomputed agrees with the CPU pair style and with the serial evaluation", "statement": "In mode no_mpi_message_passing the Kokkos pair style adds on every process the energy, virial and forces (on local and ghost atoms) that the CPU pair style adds in the same mode, for every order of the neighbour list, whatever was computed before with either of them and however the threads are scheduled, without data race or other undefined behaviour. Over all processes the additions sum up to those of one serial evaluation of the undivided atoms. If the list is in the order of the atoms, the energy of atom i is added to entry i of the per-atom energies.", "quantifier": "for all well-formed model files, pair_coeff arguments, numbers of processes, ways to share the atoms, neighbour lists, flags, contents of the accumulators, histories of each process, executions", "why_tests_cant": "Which atoms are ghosts with neighbours of their own depends on the decomposition; orders of the atomic increments that number the ghosts and the edges depend on the scheduler and cannot be enumerated.", "anchors": ["pair_symmetrix/pair_symmetrix_mace_kokkos.cpp:856-1180", "pair_symmetrix/pair_symmetrix_mace.cpp:551-747"]}
{"id": "C62", "title": "The Kokkos pair style with message passing between processes agrees with the CPU pair style and with the serial evaluation", "statement": "In mode mpi_message_passing the Kokkos pair style adds on every process the energy, virial and forces (on local and ghost atoms) that the CPU pair style adds in the same mode, whatever was computed before with either of them, however the threads are scheduled and whether messages pass through the host or stay on the device, without data race or other undefined behaviour; the storage that the pair style and the evaluator share after the first call (mace->H1 = H1) does no harm. Over all processes the additions sum up to those of one serial evaluation of the undivided atoms. The energy of local atom i is added to entry i of the per-atom energies.", "quantifier": "for all well-formed model files, pair_coeff arguments, numbers of processes, ways to share the atoms, communication plans, flags, contents of the accumulators, histories of the processes, executions", "why_tests_cant": "The aliasing of H1 depends on the sequence of sizes over all earlier calls, and the forward and reverse communication on the decomposition; orders of parallel updates depend on the scheduler. None of these can be enumerated.", "anchors": ["pair_symmetrix/pair_symmetrix_mace_kokkos.cpp:589-851", "pair_symmetrix/pair_symmetrix_mace.cpp:376-550"]}
{"id": "C63", "title": "The exported polynomials of layer 0 are the symmetric contractions of the model", "statement": "For every exported element, output component and channel, the monomials and weights M0 written by the exporter represent the symmetric contraction of the MACE model (sum over orders, paths and index tuples of weight times U times features), up to entries of U below 1e-12; each monomial is sorted, within range and listed once, and the monomials are the same for all elements and channels, so that the polynomial evaluator built from the file computes the contraction of the model. Elements are taken by their position in the model, not in the request. Models of a correlation order other than three are rejected with an exception.", "quantifier": "for all U matrices, weights, numbers of channels, l_max, L_max, lists of elements, feature vectors", "why_tests_cant": "Terms for the same monomial arise from all permutations of an index tuple and from several paths and orders; a lost or doubled contribution or a wrong element row shows only for some models.", "anchors": ["symmetrix/source/symmetrix/extract_mace_data.py:240-301"]}
{"id": "C64", "title": "The exported polynomials of layer 1 are the symmetric contractions of the model", "statement": "For every exported element and channel, the monomials M1 and weights written by the exporter represent the symmetric contraction of the second product of the MACE model, whatever its correlation order; or the export ends with an error.", "quantifier": "for all U matrices, weights, numbers of channels, lists of elements, feature vectors, correlation orders", "why_tests_cant": "The orders 1 to 3 are written into the code; a model with another order is exported without any sign of error.", "anchors": ["symmetrix/source/symmetrix/extract_mace_data.py:422-475"]}
{"id": "C65", "title": "The node energies are the MACE energy formula", "statement": "After loading any well-formed file and after any sequence of earlier calls, compute_node_energies_forces returns for every node the closed formula of the two-layer MACE model: tabulated species energy plus ZBL repulsion plus linear readout of the first-layer scalars plus SiLU network of the second-layer scalars, the features being nested finite sums over neighbours, channels, angular components, coupling paths and monomials with cubic Hermite interpolated radial functions and the density scaling.", "quantifier": "for all well-formed files with each monomial listed once, all spherical harmonics functions of the right shape, all orders left open by std::sort, all earlier inputs, all inputs", "why_tests_cant": "The code computes the formula in blocked matrix products, packed polynomials and reused buffers; an index error may show only for some numbers of channels, species, degrees or histories.", "anchors": ["libsymmetrix/source/mace.cpp:17-64", "libsymmetrix/source/mace.cpp:66-202", "libsymmetrix/source/mace.cpp:273-298", "libsymmetrix/source/mace.cpp:348-424", "libsymmetrix/source/mace.cpp:453-503", "libsymmetrix/source/mace.cpp:607-643", "libsymmetrix/source/mace.cpp:681-706", "libsymmetrix/source/mace.cpp:759-833", "libsymmetrix/source/mace.cpp:876-1103"]}
{"id": "C66", "title": "An isolated atom has the tabulated energy of its species", "statement": "In every call, whatever calls came before and whatever the other atoms do, a node with an empty neighbour list gets exactly the tabulated energy of its species.", "quantifier": "for all well-formed files, earlier inputs, inputs and nodes without neighbours", "why_tests_cant": "Left-over values of earlier calls in the reused buffers would show only for particular sequences of inputs.", "anchors": ["libsymmetrix/source/mace.cpp:17-64", "libsymmetrix/source/mace.cpp:876-904"]}
{"id": "C67", "title": "The exported model has the energies of the PyTorch model", "statement": "For every two-layer MACE model of the supported kind and every list of distinct species of the model, extract_mace_data produces a well-formed file, and every evaluation in C++ with that file returns for every node the energy that the PyTorch model defines: atomic energy, shift and scale, pair repulsion, both readouts, with interactions, element-dependent skip connections, symmetric contractions and residual as the PyTorch modules compute them, radial functions replaced by the interpolants of their values at the exported knots. Every distance below r_cut - 1e-12 can be evaluated.", "quantifier": "for all models, numbers of channels, elements, L_max, paths, species lists without repetition, numbers of spline points >= 2, earlier inputs, inputs", "why_tests_cant": "The exporter fuses, transposes, rescales and reorders about twenty tensors; an index or normalisation error may show only for some numbers of channels or elements, orders of atomic numbers, or block classes.", "anchors": ["symmetrix/source/symmetrix/extract_mace_data.py:19-519", "libsymmetrix/source/mace.cpp:876-1103", "libsymmetrix/source/mace.cpp:17-64"]}
{"id": "C68", "title": "The exporter refuses models it cannot represent", "statement": "If the model does not have exactly two interaction blocks of the supported classes, if l_max is not 3, if its pair repulsion is not ZBL, if a requested species is not in the model, or if the weights of linear_up of the second interaction for l = 0 are not of full rank, extract_mace_data raises an exception and writes nothing.", "quantifier": "for all models, species lists and numbers of spline points", "why_tests_cant": "An infinite set of unsupported models; a missing check would silently produce a file with wrong energies.", "anchors": ["symmetrix/source/symmetrix/extract_mace_data.py:70-90", "symmetrix/source/symmetrix/extract_mace_data.py:115-131", "symmetrix/source/symmetrix/extract_mace_data.py:479-482"]}
{"id": "C69", "title": "Exporting fewer species does not change the energies", "statement": "Exporting a model for two different lists of species and evaluating both files on the same atoms (types renumbered accordingly) gives the same node energies.", "quantifier": "for all models, pairs of species lists without repetition, histories of calls, inputs", "why_tests_cant": "Type indices, positions in the list of elements of the model and positions in the tables all differ between the two files; an error may show only for particular subsets.", "anchors": ["symmetrix/source/symmetrix/extract_mace_data.py:115-125", "symmetrix/source/symmetrix/extract_mace_data.py:150-175", "symmetrix/source/symmetrix/extract_mace_data.py:185-200", "symmetrix/source/symmetrix/extract_mace_data.py:225-260", "symmetrix/source/symmetrix/extract_mace_data.py:455-474"]}
{"id": "C70", "title": "Requesting a species more than once", "statement": "If a species is listed more than once, the export is either refused or has the energies of the PyTorch model.", "quantifier": "for all models and species lists, with repetitions", "why_tests_cant": "The file is accepted by C++ and only some pairs of species read a wrong radial table.", "anchors": ["symmetrix/source/symmetrix/extract_mace_data.py:115-125", "symmetrix/source/symmetrix/extract_mace_data.py:150-153", "libsymmetrix/source/mace.cpp:66-120"]}
{"id": "C71", "title": "C++ forces with an exported file are minus the gradient of the PyTorch energy", "statement": "Export a model with extract_mace_data.py, load the file in C++ and evaluate any structure: node_forces is minus the gradient, with respect to the components of the edge vectors, of the total energy of the PyTorch model (radial functions replaced by their exported interpolants), wherever no two atoms coincide, no pair reaches the tabulated radius, and no message is divided by zero.", "quantifier": "every supported PyTorch model (with or without repulsion), every selection of its species without repetitions, every number of knots at least 2, every structure inside the tables, every history of earlier evaluations", "why_tests_cant": "The shipped tests compare C++ forces with finite differences of C++ energies, or with one reference model; a table derivative, fused weight or normalisation that is consistent inside C++ but differs from the model would pass the first and could be invisible in the second.", "anchors": ["symmetrix/source/symmetrix/extract_mace_data.py:19-519", "libsymmetrix/source/mace.cpp:17-64 (compute_node_energies_forces)", "libsymmetrix/source/mace.cpp:876-1103 (load_from_json)"]}
{"id": "C72", "title": "ASE results with an exported file are those of the PyTorch model", "statement": "With an exported file, the ASE calculator returns energies equal to the node energies of the PyTorch model, a total equal to their sum, forces equal to minus the gradient of that sum with respect to the positions (periodic images included), and a stress equal to its strain derivative over the volume.", "quantifier": "every supported model, species selection and knot count; every neighbour list grouped by centre whose last atom has a neighbour; every position, shift and volume; every history of evaluations", "why_tests_cant": "End-to-end agreement composes the exporter, the loader, the evaluator and the calculator; tests fix one trained model and a few structures and use tolerances larger than the effect of a slightly wrong table.", "anchors": ["symmetrix/source/symmetrix/extract_mace_data.py:19-519", "symmetrix/source/symmetrix/symmetrix_calc.py", "libsymmetrix/source/mace.cpp"]}
{"id": "C73", "title": "LAMMPS results with an exported file are those of the PyTorch model, in all three modes", "statement": "With an exported file, pair_style symmetrix/mace adds to energy, forces and virial the total energy of the PyTorch model for the periodic system, minus its gradient with respect to the positions of the atoms, and minus its strain derivative; on any number of processes, in modes mpi_message_passing and no_mpi_message_passing, the sums over the processes are the same energy and gradient, and every local atom has the node energy of the model.", "quantifier": "every supported model, species selection and knot count; every system, neighbour list, division among processes, communication plan and run of steps meeting the documented LAMMPS contract; accumulators with any content", "why_tests_cant": "It ranges over all decompositions and all models; a test would need the Python model and LAMMPS side by side and could only sample a few decompositions.", "anchors": ["symmetrix/source/symmetrix/extract_mace_data.py:19-519", "pair_symmetrix/pair_symmetrix_mace.cpp: compute_no_domain_decomposition, compute_mpi_message_passing, compute_no_mpi_message_passing"]}
{"id": "C74", "title": "Energies are invariant under rotations of the atoms", "statement": "If the tables of a model file are equivariant under an orthogonal map of space (spherical harmonics, polynomial coefficients and Clebsch-Gordan table, with any weights of the linear layers, radial tables and densities), the node energies computed by MACE::compute_node_energies_forces are the same for the edge vectors and for their images.", "quantifier": "every well-formed file with equivariant tables, every linear map and representation, every history of earlier calls, every input with non-zero edge vectors", "why_tests_cant": "A test tries one trained file and a few rotations; a wrong component order (sphericart takes z, x, y) or a wrong column of the coupling can cancel for particular files and directions, and the property concerns every equivariant table and every rotation, including reflections.", "anchors": ["libsymmetrix/source/mace.cpp:17-64", "libsymmetrix/source/mace.cpp:66-202", "libsymmetrix/source/mace.cpp:273-298", "libsymmetrix/source/mace.cpp:348-424", "libsymmetrix/source/mace.cpp:453-503", "libsymmetrix/source/mace.cpp:607-643", "libsymmetrix/source/mace.cpp:681-706", "libsymmetrix/source/mace.cpp:759-833", "libsymmetrix/source/mace.cpp:876-1103"]}
{"id": "C75", "title": "Forces rotate with the atoms", "statement": "For an equivariant file and an orthogonal map, wherever the model is differentiable the edge forces for the rotated edge vectors are the rotated edge forces (and the node energies are unchanged).", "quantifier": "every smooth well-formed file with equivariant tables, every orthogonal matrix, every history of calls, every smooth structure", "why_tests_cant": "It relates two runs of the reverse passes for all structures and all rotations; finite samples cannot exclude an error that vanishes on symmetric structures.", "anchors": ["libsymmetrix/source/mace.cpp:17-1103"]}
{"id": "C76", "title": "Exporting preserves equivariance", "statement": "If the constant tensors of the PyTorch model (spherical harmonics, Clebsch-Gordan coefficients, tensors U of the symmetric contractions) are equivariant, then with the exported file, for all trained weights, the C++ node energies are invariant and the C++ edge forces rotate with the atoms.", "quantifier": "every supported model, species selection and number of knots; every orthogonal matrix with its representation; every input where the interpolated model is differentiable", "why_tests_cant": "The exporter rearranges tensors into sparse tables; an error that breaks equivariance only for certain degrees or paths is visible only for models that use them.", "anchors": ["symmetrix/source/symmetrix/extract_mace_data.py:19-519", "libsymmetrix/source/mace.cpp:17-1103"]}
{"id": "C77", "title": "The ASE calculator is equivariant under rotations", "statement": "Rotating positions and cell (periodic images) together leaves the 'energy' and 'energies' of the ASE calculator unchanged, rotates 'forces', and transforms the six-component 'stress' as a symmetric tensor of second rank.", "quantifier": "every equivariant smooth file, every system, sorted symmetric neighbour list, volume, and orthogonal matrix", "why_tests_cant": "The order and symmetrisation of the six stress components is wrong in a way that a diagonal or symmetric example does not show; the claim is for all structures and rotations.", "anchors": ["symmetrix/source/symmetrix/symmetrix_calc.py: calculate", "libsymmetrix/source/mace.cpp:17-1103"]}
{"id": "C78", "title": "Rigid motions of all atoms in the LAMMPS pair style", "statement": "If the tables of the model are equivariant under an orthogonal matrix, moving all atoms (local and ghost) by that matrix and a shift leaves the energy and the energies of the atoms computed by pair_style symmetrix/mace unchanged, rotates the force on every atom, and transforms the six components (xx, yy, zz, xy, xz, yz) of the virial as a symmetric tensor; in the parallel modes also when the atoms are distributed differently over processes before and after the motion.", "quantifier": "every equivariant smooth file, orthogonal matrix and shift; every system, neighbour list, number of processes, distribution, message plan and history of time steps; all three modes of the pair style", "why_tests_cant": "Rotating a simulation changes the decomposition, the ghosts and the order of the list at once; a test compares a few runs within a tolerance and cannot cover all distributions.", "anchors": ["pair_symmetrix/pair_symmetrix_mace.cpp: compute_no_domain_decomposition, compute_mpi_message_passing, compute_no_mpi_message_passing", "libsymmetrix/source/mace.cpp:17-1103"]}
{"id": "C79", "title": "Translations change nothing in the LAMMPS pair style", "statement": "For every model whatsoever, in exact arithmetic, a call of compute with all atoms shifted by the same vector has exactly the same outcome as the call without the shift: same accumulated energies, forces, virial, and same contents of all buffers.", "quantifier": "every model (no hypothesis on its tables), state of the buffers, list, flags and shift", "why_tests_cant": "It excludes any dependence on absolute positions for all systems.", "anchors": ["pair_symmetrix/pair_symmetrix_mace.cpp: PairSymmetrixMACE::compute_no_domain_decomposition"]}
{"id": "C80", "title": "The Kokkos class of multivariate polynomials computes what the CPU class computes", "statement": "An object of class MultivariatePolynomialKokkos, constructed from the same number of variables, coefficients and monomials as a MultivariatePolynomial object, returns for every point the same value from evaluate, evaluate_simple, evaluate_gradient and evaluate_gradient_simple and fills the gradient array with the same numbers, whatever calls were made before and in whatever order the threads of the kernels run.", "quantifier": "every polynomial, every history of calls, every point, every interleaving of threads, every memory space of the default execution space", "why_tests_cant": "The tests in the repository run with one thread in host memory, where neither the data race on the gradient nor the uninitialised host mirror can show; the equality is for all polynomials and histories.", "anchors": ["libsymmetrix/source/multivariate_polynomial_kokkos.cpp:9-181", "libsymmetrix/source/multivariate_polynomial.cpp:10-289", "symmetrix/source/cpp/multivariate_polynomial_kokkos.cpp"]}
{"id": "C81", "title": "The Kokkos cubic spline evaluates as the CPU cubic spline", "statement": "An object of class CubicSplineKokkos constructed from a spacing, values and derivatives (vectors or views) returns from evaluate, evaluate_deriv and evaluate_deriv_divided the same numbers, or throws for the same arguments, as the CubicSpline object constructed from the same data, wherever the default execution space keeps its memory.", "quantifier": "every spacing, every values and derivatives on at least two nodes, every argument (below the last node for the derivative evaluators, see C45), every interleaving of the kernel, every previous state of memory", "why_tests_cant": "The repository's tests run in host memory, where the missing deep_copy of the coefficients cannot show; the equality is for all splines and arguments.", "anchors": ["libsymmetrix/source/cubic_spline_kokkos.cpp", "libsymmetrix/source/cubic_spline.cpp"]}
{"id": "C82", "title": "The Kokkos spline set evaluates as the CPU spline set", "statement": "An object of class CubicSplineSetKokkos constructed from a spacing, values and derivatives stores in its output arrays or views, for every call of evaluate and evaluate_derivs (one argument or many, views or spans), exactly what the CubicSplineSet constructed from the same data stores, leaving the other elements unchanged, whatever calls came before; calls are memory safe for every argument, and both constructors are.", "quantifier": "every number of splines and nodes, every history of calls, every argument and previous content of the outputs, every interleaving of threads", "why_tests_cant": "Out-of-bounds accesses and wrong view extents are silent without bounds checking; equality is for all data, histories and thread schedules.", "anchors": ["libsymmetrix/source/cubic_spline_set_kokkos.cpp", "libsymmetrix/source/cubic_spline_set.cpp"]}
{"id": "C83", "title": "C++ sees the elements of the numpy arrays it is given", "statement": "When MACE.compute_node_energies_forces (or any other bound function with array arguments) is called from Python with numpy arrays of the right element type, C++ computes with the elements of the arrays in the order of numpy's flatten, and an output array holds the results afterwards, with no other memory changed.", "quantifier": "every numpy array: every shape, offset, strides and contents", "why_tests_cant": "The tests pass freshly created contiguous arrays only; slices, transposes and reversed arrays are accepted without complaint and read at the wrong positions.", "anchors": ["symmetrix/source/cpp/mace.cpp:35-52", "symmetrix/source/cpp/cubic_spline_set.cpp:13-24", "symmetrix/source/cpp/utilities_kokkos.hpp:15-25"]}
{"id": "C84", "title": "Setting an attribute of MACEKokkos and reading it back gives the same numbers", "statement": "After evaluator.X = a for an attribute X of MACEKokkos (node_energies, node_forces, R0, R1, A0, M0, H1, Phi1, A1, M1, H2 and the adjoints), reading evaluator.X returns the elements of a, and the kernels see them in row-major order with the inner extents of the model, whatever extents X had before; an array that does not fill whole rows is refused.", "quantifier": "every previous view, every array, every inner extents, every element type", "why_tests_cant": "Index arithmetic of three ranks and reallocation for all sizes; the silent loss of a remainder needs an array of a wrong size.", "anchors": ["symmetrix/source/cpp/mace_kokkos.cpp:22-386", "symmetrix/source/cpp/utilities_kokkos.hpp:27-75", "libsymmetrix/source/tools_kokkos.hpp:74-161"]}
{"id": "C85", "title": "The energy of an atom depends on its environment only, not on numbering, neighbour order or the cell chosen", "statement": "If an input x' covers an input x (each node of x' stands for a node of x of the same species, its edges stand for the edges of that node, each once and in any order, and the far end of an edge for the far end of its image), with the same edge vectors, then the energy of every node of x' is the energy of the node it stands for. Renumbered atoms, reordered neighbour lists, supercells of any size and sets of copies are instances.", "quantifier": "every model file, every input, every covering map, every sequence of earlier calls", "why_tests_cant": "All permutations, all supercells and all models at once; a mistake shows only for an order or a cell that the test does not use.", "anchors": ["libsymmetrix/source/mace.cpp:17-64", "libsymmetrix/source/mace.cpp:66-903"]}
{"id": "C86", "title": "Edge forces follow the atoms when they are renumbered, and repeat in a supercell", "statement": "If every node of x has exactly k nodes of x' above it, the total energy of x' is k times that of x and the edge forces above an edge add up to k times its force; if k = 1 (renumbering), or if the symmetries of x' carry the edges above an edge into each other (the translations of a supercell), every edge force of x' is the force of the edge it stands for.", "quantifier": "every model file, every input, every covering map, every k, every sequence of earlier calls", "why_tests_cant": "All permutations and all supercells; forces are compared through the energy of which they are the gradient.", "anchors": ["libsymmetrix/source/mace.cpp:17-64", "libsymmetrix/source/mace.cpp:66-903"]}
{"id": "C87", "title": "Results of the ASE calculator do not depend on the order of the atoms; a supercell gives the results of the cell", "statement": "When the atoms of a structure are renumbered, 'energies' and 'forces' are reordered and 'energy' and 'stress' are unchanged. For a supercell of k cells 'energy' is k times that of the cell, and 'energies', 'forces' and 'stress' are those of the cell.", "quantifier": "every model file, every structure, every numbering, every supercell, every sequence of earlier calls", "why_tests_cant": "All orders and all cells; the failing case, an isolated atom that comes last, is not among the structures tested.", "anchors": ["symmetrix/source/symmetrix/symmetrix_calc.py:60-102", "libsymmetrix/source/mace.cpp:17-64"]}
{"id": "C88", "title": "The message sizes announced to LAMMPS are those of the messages", "statement": "With mpi_message_passing, a communication buffer of comm_forward (comm_reverse) elements per atom, as LAMMPS allocates it, is filled exactly by pack_forward_comm (pack_reverse_comm): row ii holds the features of the ii-th atom of the send list, and the number of elements returned is the size of the buffer. No smaller size would do.", "quantifier": "every number of angular and radial channels, every send list, every buffer, every order of execution on the device", "why_tests_cant": "A buffer that is too small is overrun silently; LAMMPS over-allocates, so most runs do not show it.", "anchors": ["pair_symmetrix/pair_symmetrix_mace.cpp:141-148", "pair_symmetrix/pair_symmetrix_mace.cpp:194-238", "pair_symmetrix/pair_symmetrix_mace_kokkos.cpp:161-168", "pair_symmetrix/pair_symmetrix_mace_kokkos.cpp:222-370"]}
{"id": "C89", "title": "The ASE calculator and the LAMMPS pair style agree", "statement": "For the same model file and the same structure (the same elements, the same neighbours at the same displacements, in any order and any numbering) the energy LAMMPS accumulates is the ASE 'energy', the energies of the atoms are 'energies', the forces are 'forces' and the virial is minus the volume times 'stress'. This holds in all three modes of the pair style, for every distribution of the atoms over processes.", "quantifier": "every model file, every structure whose last atom has a neighbour (for the others see C44), every order of atoms and neighbours, every split over processes, every sequence of earlier calls", "why_tests_cant": "A relation between two programs with different neighbour lists, units of stress and orders of summation, over all structures and all distributions.", "anchors": ["symmetrix/source/symmetrix/symmetrix_calc.py:60-102", "pair_symmetrix/pair_symmetrix_mace.cpp: compute_no_domain_decomposition, compute_mpi_message_passing, compute_no_mpi_message_passing", "libsymmetrix/source/mace.cpp:17-64"]}
{"id": "C90", "title": "Sizes and offsets in int do not overflow while the arrays are indexable", "statement": "If every array that an evaluation reads or writes has fewer than 2^31 entries, then no size and no offset that MACE::compute_node_energies_forces computes in 32-bit signed int overflows, so that the result for a large system is defined whenever its data could be addressed at all.", "quantifier": "every model file (channels, l_max, L_max, paths, species), every number of atoms, every neighbour list", "why_tests_cant": "An overflow needs systems of thousands of atoms with production models, on a machine with enough memory; sanitizer runs use small ones. The bound must be found for all combinations of sizes.", "anchors": ["libsymmetrix/source/mace.cpp:17-903", "libsymmetrix/source/mace.cpp:759-777", "libsymmetrix/source/zbl.cpp:96-125"]}
{"id": "C91", "title": "The ASE calculator and the Kokkos pair style agree", "statement": "For the same model file and the same structure (any numbering, any neighbour order in the ASE list) every outcome of the Kokkos pair style - whatever the objects computed before, however kernels are scheduled, whether messages go through the host or stay on the device, however atoms are distributed over processes - adds to the LAMMPS accumulators the energy, the atomic energies, the forces (summed over the copies of an atom) and minus the volume times the stress that the ASE calculator reports.", "quantifier": "every model file that both evaluators load, every structure whose last atom has a neighbour (C44), every schedule, every split over processes, every sequence of earlier calls; in mode no_domain_decomposition neighbour lists in the order of the atoms (C59 for the others), and for atomic energies in mode no_mpi_message_passing likewise", "why_tests_cant": "A relation between a Python program and parallel device code over all structures, schedules and distributions.", "anchors": ["symmetrix/source/symmetrix/symmetrix_calc.py:60-102", "pair_symmetrix/pair_symmetrix_mace_kokkos.cpp: compute_no_domain_decomposition, compute_mpi_message_passing, compute_no_mpi_message_passing", "libsymmetrix/source/mace_kokkos.cpp"]}
{"id": "C92", "title": "Forces and virial of the Kokkos pair style in the distributed modes are derivatives of its energy", "statement": "In the modes mpi_message_passing and no_mpi_message_passing of the Kokkos pair style, the sum of what all processes add to the forces on an atom and all its ghost copies is minus the derivative, with respect to the position of that atom with all its copies moving along, of the sum of what all processes add to the energy; and for every symmetric strain the derivative of that energy is minus the contraction of the strain with the sum of what is added to the virials. Every outcome of every schedule succeeds and satisfies this, at the given and at the displaced positions.", "quantifier": "every model file that both evaluators load and whose functions are smooth, every split of a system over processes, every earlier history of calls, every schedule of the kernels, messages through the host or on the device, every atom, direction and symmetric strain; no pair exactly at the cutoff, fixed neighbour lists", "why_tests_cant": "Finite differences test one structure, one schedule and one split over processes, with truncation error; the claim is about the exact derivative of a nondeterministic distributed computation.", "anchors": ["pair_symmetrix/pair_symmetrix_mace_kokkos.cpp: compute_mpi_message_passing, compute_no_mpi_message_passing, pack/unpack_forward_comm_kokkos, pack/unpack_reverse_comm_kokkos", "libsymmetrix/source/mace_kokkos.cpp"]}
{"id": "C93", "title": "With an exported file, the Kokkos evaluator and pair style compute the energies of the PyTorch model and their derivatives", "statement": "Every file the exporter writes has the form the Kokkos loader relies on (tables with the same knots for all pairs, one table per unordered pair of elements, no monomial with more than three factors), and is loaded. The node energies computed by the Kokkos evaluator are then those of the PyTorch model with its radial functions interpolated, and the edge forces are minus their gradient. The Kokkos pair style, in each of its three modes, adds in total the energy of the PyTorch model, forces that are minus its derivative with respect to the positions, and a virial that is its derivative with respect to strain. Every outcome of every schedule succeeds and satisfies this.", "quantifier": "every PyTorch model of the architecture the exporter supports, every list of species and number of knots, every ordering of the monomials the loader may produce, every earlier history of admissible calls, every schedule of the kernels and content of uninitialised memory, every structure and every split of it over processes, messages through the host or on the device; derivatives where the model is differentiable and no pair is exactly at the cutoff", "why_tests_cant": "Tests export a few models and compare a few structures within a tolerance on one device; the claim relates three programs in two languages for every model, structure and schedule, exactly.", "anchors": ["symmetrix/source/symmetrix/extract_mace_data.py:19-519", "libsymmetrix/source/mace_kokkos.cpp: load_from_json, compute_node_energies_forces and all kernels", "pair_symmetrix/pair_symmetrix_mace_kokkos.cpp: compute_no_domain_decomposition, compute_mpi_message_passing, compute_no_mpi_message_passing"]}
{"id": "C94", "title": "The Kokkos evaluator and pair style are equivariant under rotations, reflections and rigid motions", "statement": "If the tables of a file are equivariant under an orthogonal matrix g, the Kokkos evaluator computes the same node energies for the rotated structure and the rotated edge forces. Moving every atom from x to g x + d, the Kokkos pair style, in each of its three modes, adds the same energy, rotated forces on every atom (with all its ghosts) and a rotated virial. This holds between any two outcomes of any two schedules, for objects with different histories and, in the distributed modes, for different splits of the atoms over processes before and after the motion.", "quantifier": "every model file that both evaluators load, whose functions are smooth and whose tables are equivariant under g; every orthogonal g (reflections included) and every shift d; every structure where the model is differentiable; every earlier history, schedule and content of uninitialised memory; every split over processes, messages through the host or on the device", "why_tests_cant": "A test rotates a few structures by a few matrices and compares within a tolerance that hides schedule-dependent differences; the claim is exact, for all structures, all orthogonal matrices, all schedules and all divisions over processes.", "anchors": ["libsymmetrix/source/mace_kokkos.cpp: compute_node_energies_forces and all kernels", "pair_symmetrix/pair_symmetrix_mace_kokkos.cpp: compute_no_domain_decomposition, compute_mpi_message_passing, compute_no_mpi_message_passing"]}
{"id": "C95", "title": "With an exported file, the ASE calculator with the Kokkos evaluator returns the energies of the PyTorch model and their derivatives", "statement": "With a file written by the exporter, the ASE calculator running on the Kokkos evaluator returns as free_energy the total energy of the PyTorch model with its radial functions interpolated, as forces minus its gradient with respect to the positions, as stress its derivative with respect to strain divided by the volume, and as the first entries of energies the energies of the atoms. Every outcome of every schedule succeeds and satisfies this.", "quantifier": "every PyTorch model of the architecture the exporter supports, every list of species and number of knots, every history of calls with admissible structures (including ones that raise exceptions), every schedule and content of uninitialised memory, every structure whose last atom has a neighbour and at which the model is differentiable, every symmetric strain", "why_tests_cant": "Tests compare a few structures with PyTorch within a tolerance, on one device and with a fresh calculator; the claim is exact, for all models, structures, histories and schedules.", "anchors": ["symmetrix/source/symmetrix/extract_mace_data.py:19-519", "symmetrix/source/symmetrix/symmetrix_calc.py: Symmetrix.calculate", "libsymmetrix/source/mace_kokkos.cpp"]}
