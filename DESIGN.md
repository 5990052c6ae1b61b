# Formal model of wcwitt/symmetrix in Rocq — design

## 1. Approach

The model is a set of total Gallina functions (and, for the Kokkos code, small concurrent programs) that follow the C++ and
Python text function by function.  It is in `/verif/rocq/theories/`, logical name `Verif`.  Every definition of a `*Model` file
cites the lines of /repo it stands for, and says where it simplifies.

* **Scalars.**  All numeric code is generic in a record `Num` (carrier, `+ - * / neg`, literals, `<`, truncation to int, `exp`,
  `sqrt`, `pow`), *without laws*.  A theorem proved for every `Num` therefore holds for IEEE doubles, with NaN and rounding.
  History independence, batching, layout, locality, memory safety, and all combinatorial results are proved at this level (marked `-` in the
  table of section 4: no axiom at all).  Values and derivatives are proved for the instance over the standard library's reals
  (`RNum`; a decimal literal is the rational number it denotes).  The repository is compiled with `-ffast-math`, so the compiler itself is
  allowed to reassociate: bitwise statements of the generic theorems hold for the source text, read in order.
* **Memory.**  `std::vector`/`std::span` are lists.  Reads (`rd`) and writes (`wr`) return `option`; `None` is undefined
  behaviour (out of bounds) or a C++ exception (`SplineModel.outcome` separates the two).  `f ... = Some out` is thus
  also a proof of memory safety.
* **Loops.**  `for_ n body s` runs `body 0 .. body (n-1)` in order.  Running counters such as `ij` are part of the loop state.
* **Object state.**  Buffers that persist in C++ objects between calls are explicit arguments and results, with arbitrary
  content and length: history independence is "the result is the same for every old buffer".
* **Integers.**  Sizes, indices and loop counters are `nat`; C++ `int`s that may be negative are `Z`.  Overflow of 32-bit `int` is
  modelled separately: `IntModel.v` contains every `int` expression of one evaluation (C90).
* **Kokkos.**  `KkSem.v` gives kernels an interleaving semantics: every load, store and atomic addition is one step, any thread may
  take the next one.  Two threads that store, or load and store, one cell lead to different results in different executions, and theorems
  quantify over *all* executions; an access outside the extents of a view is a stuck/undefined configuration.  The proofs use a small
  program logic with ownership of cells (`KkWp.v`, `KkLogic.v`), kernel by kernel.
* **Derivatives** are stated with the standard library's `derivable_pt_lim` (epsilon-delta); Coquelicot is used in proofs only.

Kinds of files: `Base*`, `RSums`, `RList`, … (library); `*Model` (code); `*Proofs`, `Mace*`, `Grad*`, `Dist*`, `Pair*`, `Kk*` (lemmas); `*Spec`
(independent specifications); `*Examples` (witnesses); `Properties*` (only theorem statements closed by `exact`,
each followed by `Print Assumptions` and a concrete example that meets its hypotheses).

## 2. What is modelled

| model | source | scope |
|---|---|---|
| BlasModel | calls of CBLAS | dgemm/dgemv/ddot/dcopy by their defining loops, sums from left to right |
| ToolsModel | libsymmetrix tools.cpp, tools.hpp | all functions |
| SplineModel | cubic_spline.cpp, cubic_spline_set.cpp; guards of cubic_spline_kokkos.cpp | all functions |
| MpModel | multivariate_polynomial.cpp | constructor and all evaluators |
| MlpModel | multilayer_perceptron.cpp | all functions |
| ZblModel | zbl.cpp | all functions |
| SphModel | spherical_harmonic.cpp | all functions |
| MaceModel | mace.cpp, mace.hpp | loading from the parsed file, every compute/reverse stage, the complete evaluation |
| AseModel | symmetrix_calc.py, bindings of the CPU class | `calculate` |
| ExportModel | extract_mace_data.py | the order of the radial tables, the index functions of the coupling tables |
| ExportPolyModel | extract_mace_data.py | the polynomials M0 and M1; `U_matrix_real` and the weights of the PyTorch model are inputs |
| ExportFullModel | extract_mace_data.py | `extract_mace_data` from the loaded model (one head) to the output dictionary; TorchSpec states what the PyTorch modules compute, TorchGradSpec its total energy and where it is differentiable |
| PairModel | pair_symmetrix_mace.cpp | settings, coeff, init, compute without domain decomposition, virial, per-atom energies |
| PairMpiModel | pair_symmetrix_mace.cpp | both distributed computes, pack/unpack of the forward and reverse communication |
| PairKokkosModel | pair_symmetrix_mace_kokkos.cpp | commands, communication of ghosts, per-atom energies |
| KkAseModel | symmetrix_calc.py, bindings of MACEKokkos | `calculate` with the Kokkos evaluator |
| KkPairModel | pair_symmetrix_mace_kokkos.cpp | compute without domain decomposition: all kernels, the views kept between calls |
| KkPairMpiModel | pair_symmetrix_mace_kokkos.cpp | compute in mode no_mpi_message_passing |
| KkPairMpi2Model | pair_symmetrix_mace_kokkos.cpp | compute in mode mpi_message_passing, run by all processes |
| KkSem, KkModel | mace_kokkos.cpp, radial_function_set_kokkos.cpp, multilayer_perceptron_kokkos.cpp, zbl_kokkos.cpp | loading, every kernel of the complete evaluation (double precision) |
| MpKkModel | multivariate_polynomial_kokkos.cpp, its binding | constructor and the four evaluators, in host and in device memory |
| SplKkModel | cubic_spline_kokkos.cpp, cubic_spline_set_kokkos.cpp | all functions, in host and in device memory; the span overloads only where the host can access the views |
| BindModel | bindings mace.cpp, cubic_spline_set.cpp, mace_kokkos.cpp, utilities_kokkos.hpp; tools_kokkos.hpp | how numpy arrays become spans and views: arguments, output arguments, attributes; set_kokkos_view, view2vector |
| IntModel | mace.cpp:17-903, zbl.cpp:96-125 | every size and offset computed in `int`, checked for overflow |

Not modelled: the Python glue outside `calculate`, in the exporter
reading the model file and removing heads, command line tools, tests, single precision.

## 3. Trusted base

* Coq 8.16.1 kernel (and coqchk, run by the gate).
* The axioms of section 4, all from the standard library.  No axiom is added here.
* The correspondence of model and code, by inspection.
* External code, as parameters with a recorded contract, or as a definition:
  * **sphericart** is the oracle `sph l_max x y z`, returning values and gradients.  Contracts, each an explicit hypothesis where it is used:
    `sph_ok` (sizes), `sph_gradient` (the second output is the gradient of the first, away from the origin).  `ex_sph` meets them.
    The Kokkos version is the same function applied to each point of the array.
  * **std::sort** with equal keys: the parameter `srt`, an arbitrary permutation that respects the key.
  * **std::tgamma, std::assoc_legendre, cos, sin, acos**: parameters of SphModel, with the standard's formulas as hypotheses.
  * **BLAS, KokkosBatched::TeamGemm**: their defining sums.
  * **nlohmann::json, cnpy**: parsing is not modelled; a parsed file is the record `mace_file`, the documented sizes are `file_ok`.
  * **numpy**: sums from left to right (numpy uses pairwise summation; over the reals there is no difference).
  * **PyTorch, e3nn, scipy, numpy.linalg** (exporter): the modules that the exporter only calls (radial functions, `conv_tp`) are functions in the record
    `torch_model`; `torch_ok` records shapes, the order of paths, symmetry of the radial functions, and that `conv_tp` is a "uvu" tensor product;
    `spl_ok`, `inv_ok` are the contracts of CubicSpline and of rank and inverse.
  * **LAMMPS**: atom arrays, neighbour lists (two top bits of an entry are flags), `atom->map`, `ev_init`, the order of messages
    of `comm->forward_comm`/`reverse_comm` are inputs; what LAMMPS guarantees about them is a hypothesis of the theorem.
    MPI processes run in lockstep between communications (`mpi_run`).
  * **Kokkos**: sequentially consistent memory; kernels of one execution space run in order of submission; a barrier ends a parallel loop; the iterations
    of one ThreadVector/TeamVector range index are run by the same lane every time; fresh memory is zero, or arbitrary (`junk`) if
    allocated without initialisation or grown; `create_mirror_view` aliases on the host and is a fresh zeroed view otherwise.
    Reductions add their contributions in any order.
* Not covered: 32-bit overflow outside of mace.cpp and `compute_ZBL` (C90), rounding (except where a theorem is for every `Num`), MPI transport, memory exhaustion.

Rotational equivariance depends on the numerical content of the model file (harmonics, Clebsch-Gordan table, symmetrised polynomial
coefficients), which the code takes as data.  C74-C78 therefore have it as a hypothesis on these tables (`equivariant`, `torch_equivariant`); that
the e3nn tensors satisfy it is not proved.

## 4. Properties, theorems, assumptions

Letters after a theorem are what `Print Assumptions` reports (`-`: closed under the global context):
`C` Classical_Prop.classic, `D` ClassicalDedekindReals.sig_forall_dec, `E` Eqdep.Eq_rect_eq.eq_rect_eq,
`F` FunctionalExtensionality.functional_extensionality_dep, `N` ClassicalDedekindReals.sig_not_dec.
`partial` means that the property as stated is wrong or not fully proved: the theorem ending in `_refuted` is a witness that the faithful
model violates it, the one ending in `_partial` says what holds; the note in MANIFEST.json explains.

| property | title | status | theorems and axioms |
|---|---|---|---|
| C01 | Edge forces are the exact negative gradient of the total energy | proved | `C01_forces_are_gradient` CDFN, `C01_motion` CDFN |
| C02 | ASE forces are minus the gradient of the ASE energy | proved | `C02_ase_forces` CDFN |
| C03 | LAMMPS forces are minus the gradient of the LAMMPS energy | proved | `C03_pair_forces` CDFN |
| C04 | Evaluation does not depend on earlier evaluations | proved | `C04_history` -, `C04_buffers` - |
| C05 | No out-of-bounds access on well-formed input | proved | `C05_no_out_of_bounds` - |
| C06 | Disconnected subsystems do not influence each other | proved | `C06_disconnected` - |
| C07 | Results do not depend on neighbour order | proved | `C07_neighbour_order` CDFN |
| C08 | Edges on which every radial function vanishes are inert | proved | `C08_inert_edge` CDFN |
| C09 | Energy of an atom without neighbours | proved | `C09_isolated` -, `C09_isolated_value` CDFN |
| C10 | Species-pair tables are addressed consistently | proved | `C10_exporter_order` -, `C10_first_radial` -, `C10_second_radial` -, `C10_first_density` -, `C10_second_density` - |
| C11 | Cubic spline interpolates its nodal data | proved | `C11_spline_interpolates` CDFN |
| C12 | Spline derivatives are the derivatives of the spline, including across knots | proved | `C12_spline_derivative` CDFN, `C12_spline_set_derivative` CDFN |
| C13 | All spline evaluators agree | proved | `C13_scalar_evaluators_agree` -, `C13_set_agrees_with_scalar` CDFN, `C13_set_values_bitwise` - |
| C14 | Spline domain guard | partial | `C14_domain_guard_partial` CDFN, `C14_negative_accepted_refuted` CDFN, `C14_set_unguarded_refuted` CDFN |
| C15 | Polynomial evaluation is correct | proved | `C15_poly_value` CDFN |
| C16 | Polynomial gradient is correct | proved | `C16_poly_gradient` CDFN |
| C17 | Batched polynomial evaluation equals row-wise evaluation | proved | `C17_poly_batch` - |
| C18 | Polynomial objects can be reused in any order | partial | `C18_poly_history_partial` -, `C18_poly_history_refuted` - |
| C19 | The polynomial constructor terminates and builds a valid evaluation graph | proved | `C19_poly_graph` - |
| C20 | Repeated monomials are summed | partial | `C20_poly_repeated_partial` CDFN, `C20_poly_repeated_refuted` CDFN |
| C21 | MLP evaluation computes the network function | proved | `C21_mlp_value` CDFN |
| C22 | MLP gradient is the Jacobian | proved | `C22_mlp_jacobian` CDFN |
| C23 | MLP batches equal row-wise evaluation | proved | `C23_mlp_batch` - |
| C24 | MLP objects can be reused in any order | proved | `C24_mlp_history` - |
| C25 | ZBL gradient is the derivative of the ZBL energy | proved | `C25_zbl_gradient` CDFN |
| C26 | ZBL has compact support and joins zero smoothly | proved | `C26_zbl_support` CDFN, `C26_zbl_envelope` CDFN, `C26_zbl_continuous` CDFN |
| C27 | ZBL is symmetric and repulsive | proved | `C27_zbl_symmetric` CDFN, `C27_zbl_repulsive` CDFN |
| C28 | ZBL accumulation touches only its own node and edge | proved | `C28_zbl_accumulation` - |
| C29 | _partitions enumerates every set partition exactly once | proved | `C29_partitions` - |
| C30 | _two_part_partitions enumerates every split into two non-empty parts exactly once | proved | `C30_two_part_partitions` - |
| C31 | _permutations enumerates all permutations in lexicographic order | proved | `C31_permutations` - |
| C32 | _product, _product_repeat, _generate_indices and _combinations enumerate exactly the right tuples | proved | `C32_product` -, `C32_product_repeat` -, `C32_generate_indices` -, `C32_combinations` - |
| C33 | _binomial_coefficient is n choose k | proved | `C33_binomial` - |
| C34 | Complex spherical harmonics obey the conjugation symmetry and preserve norm | proved | `C34_conjugation` CDFN, `C34_norm` CDFN, `C34_single` CDFN |
| C35 | Angular features and their gradients use one consistent axis convention | proved | `C35_values` -, `C35_gradient` CDFN |
| C36 | sph_harm_xyz agrees with sph_harm at the vector's spherical angles | partial | `C36_xyz_partial` CDFN, `C36_half_plane_partial` CDFN, `C36_refuted` CDFN |
| C37 | Forces conserve momentum | proved | `C37_ase_momentum` CDFN, `C37_pair_momentum` CDFN |
| C38 | Stress and virial are strain derivatives of the energy | proved | `C38_ase_stress` CDFN, `C38_pair_virial` CDFN, `C38_mpi_virial` CDFN, `C38_no_mpi_virial` CDFN |
| C39 | Distributed evaluation gives the serial result | proved | `C39_mpi_message_passing` CDFN, `C39_no_mpi_message_passing` CDFN |
| C40 | pair_coeff maps LAMMPS types to model species | partial | `C40_pair_coeff` -, `C40_symbols` -, `C40_types_used` -, `C40_kokkos_coeff_partial` -, `C40_kokkos_coeff_refuted` - |
| C41 | pair_style arguments select the mode | proved | `C41_pair_style` - |
| C42 | Ghost communication transports features and accumulates adjoints | partial | `C42_forward` -, `C42_reverse` CDFN, `C42_kokkos_device` CDFN, `C42_kokkos_host_partial` CDFN, `C42_kokkos_host_refuted` CDFN |
| C43 | Per-atom energies are attributed to the right atom | partial | `C43_eatom_partial` CDFN, `C43_kokkos_eatom_partial` CDFN, `C43_eatom_refuted` CDFN |
| C44 | The ASE calculator evaluates every atom | partial | `C44_every_atom_partial` -, `C44_trailing_isolated_refuted` -, `C44_no_pairs_refuted` - |
| C45 | Kokkos splines reject out-of-range distances without out-of-bounds reads | partial | `C45_kokkos_guard_partial` CDFN, `C45_kokkos_guard_refuted` CDFN |
| C46 | Folding embedding weights into the radial tables preserves the first-layer features | proved | `C46_first_layer` CDEFN |
| C47 | Parallel polynomial kernels are schedule independent | proved | `C47_polynomials` CDEFN |
| C48 | Per-atom result arrays have one entry per atom | partial | `C48_partial` CDEFN, `C48_refuted` CDEFN, `C48_ase_refuted` CDEFN |
| C49 | Exported coupling indices are in range and collision free | proved | `C49_lme` -, `C49_lelm1lm2` - |
| C50 | ZBL energy is the published screened-Coulomb formula | proved | `C50_zbl_formula` CDFN |
| C51 | ASE energies and forces do not need a periodic cell | partial | `C51_no_cell_partial` -, `C51_no_cell_refuted` - |
| C52 | sph_harm obeys the conjugation symmetry and is the complex form of real_sph_harm | proved | `C52_conjugation` DFN, `C52_basis` CDFN |
| C53 | In the distributed modes the forces, summed over all copies of an atom, are minus the gradient of the total energy | proved | `C53_mpi_forces` CDFN, `C53_no_mpi_forces` CDFN |
| C54 | The Kokkos evaluator gives the energies and forces of the CPU evaluator | proved | `C54_kokkos_is_cpu` CDEFN |
| C55 | Every execution of the Kokkos evaluator comes to an end | proved | `C55_ends` CDEFN |
| C56 | The Kokkos evaluator loads every model file that the CPU evaluator loads | partial | `C56_partial` CDFN, `C56_refuted` CDFN |
| C57 | The ASE calculator gives the same results with either evaluator | proved | `C57_ase_kokkos_is_cpu` CDEFN |
| C58 | With the Kokkos evaluator, ASE forces and stress are derivatives of the ASE energy | proved | `C58_forces` CDEFN, `C58_stress` CDEFN |
| C59 | The Kokkos pair style computes what the CPU pair style computes | partial | `C59_pair_kokkos_partial` CDEFN, `C59_order_refuted` CDEFN |
| C60 | Forces and virial of the Kokkos pair style are derivatives of its energy | proved | `C60_forces` CDEFN, `C60_virial` CDEFN |
| C61 | The Kokkos pair style with ghost features recomputed agrees with the CPU pair style and with the serial evaluation | proved | `C61_no_mpi_kokkos` CDEFN, `C61_no_mpi_kokkos_serial` CDEFN |
| C62 | The Kokkos pair style with message passing between processes agrees with the CPU pair style and with the serial evaluation | proved | `C62_mpi_kokkos` CDEFN, `C62_mpi_kokkos_serial` CDEFN |
| C63 | The exported polynomials of layer 0 are the symmetric contractions of the model | proved | `C63_M0` CDFN, `C63_M0_evaluated` CDFN, `C63_M0_low` CDFN, `C63_M0_high` CDFN |
| C64 | The exported polynomials of layer 1 are the symmetric contractions of the model | partial | `C64_M1_partial` CDFN, `C64_M1_evaluated_partial` CDFN, `C64_M1_refuted` CDFN |
| C65 | The node energies are the MACE energy formula | proved | `C65_energy_formula` CDFN |
| C66 | An isolated atom has the tabulated energy of its species | proved | `C66_isolated_atom` CDFN |
| C67 | The exported model has the energies of the PyTorch model | proved | `C67_export_energies` CDFN |
| C68 | The exporter refuses models it cannot represent | proved | `C68_export_refuses` CDFN |
| C69 | Exporting fewer species does not change the energies | proved | `C69_export_subset` CDFN |
| C70 | Requesting a species more than once | partial | `C70_repeated_species_partial` CDFN, `C70_repeated_species_refuted` CDFN |
| C71 | C++ forces with an exported file are minus the gradient of the PyTorch energy | proved | `C71_export_forces` CDFN |
| C72 | ASE results with an exported file are those of the PyTorch model | proved | `C72_export_ase` CDFN |
| C73 | LAMMPS results with an exported file are those of the PyTorch model, in all three modes | proved | `C73_export_lammps_serial` CDFN, `C73_export_lammps_mpi` CDFN, `C73_export_lammps_no_mpi` CDFN |
| C74 | Energies are invariant under rotations of the atoms | proved | `C74_energy_invariant` CDFN |
| C75 | Forces rotate with the atoms | proved | `C75_forces_rotate` CDFN |
| C76 | Exporting preserves equivariance | proved | `C76_export_rotation` CDFN |
| C77 | The ASE calculator is equivariant under rotations | proved | `C77_ase_rotation` CDFN |
| C78 | Rigid motions of all atoms in the LAMMPS pair style | proved | `C78_pair_rigid_motion` CDFN, `C78_mpi_rigid_motion` CDFN, `C78_no_mpi_rigid_motion` CDFN |
| C79 | Translations change nothing in the LAMMPS pair style | proved | `C79_translation` CDFN |
| C80 | The Kokkos class of multivariate polynomials computes what the CPU class computes | partial | `C80_polynomial_kokkos_partial` CDEFN, `C80_gradient_race_refuted` CDFN, `C80_device_refuted` CDFN, `C80_padding_refuted` CDEFN, `C80_no_terms_refuted` CDFN |
| C81 | The Kokkos cubic spline evaluates as the CPU cubic spline | partial | `C81_kokkos_spline_partial` CDEFN, `C81_kokkos_spline_views_partial` CDEFN, `C81_device_refuted` CDEFN |
| C82 | The Kokkos spline set evaluates as the CPU spline set | partial | `C82_kokkos_spline_set_partial` CDEFN, `C82_unguarded_refuted` CDEFN, `C82_view_constructor_refuted` CDFN |
| C83 | C++ sees the elements of the numpy arrays it is given | partial | `C83_arguments_partial` -, `C83_output_partial` -, `C83_strided_refuted` -, `C83_output_strided_refuted` - |
| C84 | Setting an attribute of MACEKokkos and reading it back gives the same numbers | partial | `C84_attributes_partial` -, `C84_remainder_refuted` - |
| C85 | The energy of an atom depends on its environment only, not on numbering, neighbour order or the cell chosen | proved | `C85_cover_energies` CDFN |
| C86 | Edge forces follow the atoms when they are renumbered, and repeat in a supercell | proved | `C86_renumbering` CDFN, `C86_fold_forces` CDFN, `C86_supercell` CDFN |
| C87 | Results of the ASE calculator do not depend on the order of the atoms; a supercell gives the results of the cell | partial | `C87_ase_renumbering_partial` CDFN, `C87_ase_supercell_partial` CDFN, `C87_ase_isolated_refuted` - |
| C88 | The message sizes announced to LAMMPS are those of the messages | proved | `C88_message_size` -, `C88_message_size_kokkos` - |
| C89 | The ASE calculator and the LAMMPS pair style agree | proved | `C89_ase_lammps` CDFN, `C89_ase_lammps_mpi` CDFN, `C89_ase_lammps_no_mpi` CDFN |
| C90 | Sizes and offsets in int do not overflow while the arrays are indexable | partial | `C90_int_arithmetic_partial` -, `C90_int_overflow_refuted` - |
| C91 | The ASE calculator and the Kokkos pair style agree | proved | `C91_ase_kokkos_lammps` CDEFN, `C91_ase_kokkos_no_mpi` CDEFN, `C91_ase_kokkos_mpi` CDEFN |
| C92 | Forces and virial of the Kokkos pair style in the distributed modes are derivatives of its energy | proved | `C92_kokkos_mpi_gradients` CDEFN, `C92_kokkos_no_mpi_gradients` CDEFN |
| C93 | With an exported file, the Kokkos evaluator and pair style compute the energies of the PyTorch model and their derivatives | proved | `C93_export_loads_in_kokkos` CDFN, `C93_kokkos_export` CDEFN, `C93_kokkos_export_serial` CDEFN, `C93_kokkos_export_mpi` CDEFN, `C93_kokkos_export_no_mpi` CDEFN |
| C94 | The Kokkos evaluator and pair style are equivariant under rotations, reflections and rigid motions | proved | `C94_kokkos_rotation` CDEFN, `C94_kokkos_rigid_motion` CDEFN, `C94_kokkos_mpi_rigid_motion` CDEFN, `C94_kokkos_no_mpi_rigid_motion` CDEFN |
| C95 | With an exported file, the ASE calculator with the Kokkos evaluator returns the energies of the PyTorch model and their derivatives | proved | `C95_kokkos_export_ase` CDEFN |

## 5. How the proofs go

* **C01–C03, C37, C38, C53 (derivatives).**  For each stage of `mace.cpp`: derivative of the outputs along a differentiable curve of edge
  vectors, and the adjoint identity `<adj_out, d out> = <adj_in, d in> - <force, d xyz>`; chained over the stages.  The callers add the chain rule for
  `xyz_ij = x_j - x_i + shift` (positions) and for strain.
* **C04–C09 (evaluator).**  Every stage equals a buffer-free function of its inputs; the properties are read off these functions.
* **C11–C14, C45 (splines).**  Algebra over R; truncation; one-sided derivatives glued at the knots.
* **C15–C20 (polynomials).**  Ordered-set model of the constructor, invariant of the evaluation graph, forward and reverse induction.
* **C21–C24 (MLP).**  Induction over layers.
* **C25–C28, C50 (ZBL).**  Real analysis of the envelope and the screening function; loop invariant.
* **C29–C33 (tools).**  List combinatorics.
* **C34–C36, C52 (spherical harmonics).**  Complex algebra.
* **C39–C43, C53 (LAMMPS).**  Loop invariants over neighbour lists; forests of forward and reverse messages; a distributed run is related to the
  serial run atom by atom.
* **C63, C64 (exported polynomials).**  Traces of the loops; the value of a dict of terms under insertion; monomials depend on U only.
* **C65, C66 (energy).**  The buffer-free functions of each stage are unfolded to the sums of EnergySpec; table of a pair of species; truncation is the
  floor on the domain of the tables.
* **C67–C70 (export).**  Every exported array is given entry by entry; each stage of the formula of C65 on the exported file equals the stage of the PyTorch
  model (the weights of `linear_up` are moved across the readouts by the inverse matrix); a counterexample for repeated species.
* **C71–C73 (export, derivatives).**  The energies of C67 hold in a neighbourhood of the structure, so the derivative of the C++ energy (C01, C02, C38, C39)
  is the derivative of the PyTorch energy; the hypotheses (`regular`, `repulsion_smooth`) speak of the PyTorch model only.
* **C74–C77 (rotations).**  Energies: every intermediate quantity of the closed formula of C65 is shown to turn with the matrices D.  Forces: the two
  energies agree in a neighbourhood, so the gradients (C01) are related by the transposed matrix.  The example file has dot, scalar and cross products
  as couplings and a rotation by 60 degrees.  The harmonics are required to be equivariant for non-zero vectors only (sphericart normalises).
* **C78, C79 (rigid motions in LAMMPS).**  Separations are rotated, so the kept neighbours and the order of the edges are the same; the serial call is the evaluator
  of C75 followed by tallies, and the parallel modes add the same as the serial call (C49, C50).  A translation leaves every separation equal.
* **C44, C51 (ASE).**  Case analysis of the neighbour list.
* **C46–C48, C54–C56 (Kokkos).**  A weakest-precondition calculus with ownership of cells, sound for all interleavings; one lemma per kernel;
  a chain of host commands carries an invariant ("every view holds the same function of the input as the CPU buffer"); termination from a measure that every
  step decreases, progress from the same calculus.
* **C57–C62 (callers of the Kokkos evaluator).**  The evaluator theorem (C61: the same stages over local nodes followed by ghosts; C62: the stages between two
  communications, with an invariant about which views share storage), kernel lemmas for the reductions of the pair style, and the CPU theorems.

* **C80 (polynomials with Kokkos).**  Each kernel by the ownership rules of KkWp/KkWp2; the host loops by invariants on `node_values`,
  `node_adjoints` that follow the lists of MpProofs; the monomial table row by row.  The race is exhibited as an execution.
* **C81, C82 (splines with Kokkos).**  The constructors by the same ownership rules; the coefficient view holds the rows that SplineProofs computes
  for the CPU classes, an invariant that every call preserves.  Found: the evaluators of CubicSplineKokkos read a mirror that is never
  copied (zero on a device); CubicSplineSetKokkos does not check its argument; its constructor from views omits an extent of a rank-3 view.
* **C83, C84 (numpy arrays).**  The positions of the elements of an array are consecutive exactly if numpy's flag C_CONTIGUOUS is set (induction on the
  shape); the bindings take `data()` and `size()` and never ask for that flag.  ASE is not affected: `xyz.flatten()` and fresh arrays are contiguous.
* **C85, C86 (renumbering, supercells).**  The closed formula of C65 is a sum over the edges of a node, invariant under a bijection of edges that keeps species and
  far ends.  Forces by uniqueness of the gradient: the covering system at copied edge vectors is a function of the vectors of the original system, and the chain
  rule gives the sum over the edges above an edge; a translation symmetry makes the summands equal.
* **C87 (ASE).**  The neighbour list of ASE as an input, then C86; the sums of `bincount` over the edges that start or end at an atom.  Refuted without the proviso
  that the last atom has a neighbour: `num_nodes = max(i_list) + 1` drops isolated atoms at the end, so 'energy' depends on the numbering.

**C88** (CommSize.v) computes the widths of the messages announced to LAMMPS by `coeff` and compares them with what the pack functions write per atom; it was added because a wrong `comm_forward` survived all other theorems.

**C89** (Agree.v, Agree2.v). A state of the LAMMPS simulation and an ASE neighbour list that describe the same structure (`same_structure`: a bijection of the atoms, equal elements, and for each atom a permutation between the neighbours within the cutoff with equal displacements) are turned into a `covers` between the inputs that the two programs pass to `compute` (the cover machinery of C85/C86); the forces and the tensors are then sums over the same pairs. The distributed modes follow from C53/C54, whose processes add up to the run on one process. The last atom must have a neighbour, otherwise the ASE program drops trailing atoms (C44).

**C90** (IntModel.v, IntProofs.v, IntLoad.v). IntModel.v is a slice of mace.cpp and of `ZBL::compute_ZBL` that keeps the loops and every `int` expression with its association, and nothing else; each product is checked against 2^31. The size bounds on the arrays (`array_sizes`) imply that all of them fit, except `M1_grad.resize(num_nodes*num_channels*num_lm*num_channels)`, which asks for num_channels times more than is used: with 128 channels and l_max = 3 the product reaches 2^31 at 8192 atoms.


**C91** (KkAgree.v) combines C89 with the serial forms of C59, C61 and C62: what the processes add is compared with the CPU pair style on the undivided system, and that with the calculator.

**C92** (KkDistGrad.v) compares, at the given and at all nearby displaced or strained positions, every outcome of the Kokkos pair style and the run of the CPU pair style with the same serial evaluation (C61, C62, C39-C41), so that the derivatives of C53 and C38 carry over.

**C93** (ExportKk.v, ExportKk2.v). The exporter sorts products of at most `correlation` factors (three for the first layer by `torch_ok`, and the second layer is exported with three), so no monomial of an exported file is longer than three; its tables are evaluated at `points` knots for every pair. That is `kk_file_ok`, and C67, C71, C73 combine with C54, C59, C61 and C62 at the serial evaluation they share.

**C94** (KkSymSpec.v, KkSym.v). Every outcome of the Kokkos evaluator and of the three modes of the Kokkos pair style is compared with the serial CPU evaluation (C54, C59, C61, C62), for the structure and for the one carried along; C75 and C78 relate the two serial evaluations. The hypothesis on the tables is that of C74 (`equivariant`), which the CPU and the Kokkos theorems share.

**C95** (ExportKkAse.v) combines C93 (the file), C72 (the calculator on the CPU) and C57 (the calculator on Kokkos).

## 6. Mutation tests

`seeded/LOG.jsonl` records, for every edit of a model definition tried in a scratch copy, the claim it breaks, the theorems that stopped compiling, and what
was tightened when one survived.
