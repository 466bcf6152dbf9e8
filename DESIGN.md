# Formal model of gyselalibxx in Rocq: design

`properties.jsonl` lists the properties (C01...), `MANIFEST.json` says which theorem states
which property, `rocq/theories/` holds the development. Naming of files, one group per area:

* `Lib.v` – the small "language" of the models: outcomes (`Ok`, `Throw` = C++ exception,
  `AssertFail` = failed `assert`/`GSLX_ASSERT`, `Ub` = undefined behaviour), buffers with
  bounds-checked `rd`/`wr`, counted loops `for_loop`, finite sums `Rsum`.
* `XModel.v` – the code, function by function, each definition citing file and lines.
* `XSpec.v` – specification vocabulary that does not mention the implementation
  (small areas put it at the head of `Properties_X.v`).
* `XProofs.v` – lemmas.
* `Properties_X.v` – only the property theorems (`Cnn_...`), each closed by an `exact`, with
  `Print Assumptions` below and an `Example` that a concrete non-trivial case meets the hypotheses.

Suffixes: `_partial` – proved for part of the property only; `_refuted` – the theorem shows that the
code violates the property in the stated case (a finding).

## Trusted base

* Coq 8.16.1's kernel (no plugin beyond the standard library's, no `native_compute`).
* Axioms printed by `Print Assumptions` – only those of Coq's standard library for the reals:
  `ClassicalDedekindReals.sig_forall_dec`, `ClassicalDedekindReals.sig_not_dec`,
  `FunctionalExtensionality.functional_extensionality_dep`, `Classical_Prop.classic` (through the
  standard library's mean value theorem and limits). Theorems on integers/lists are
  "Closed under the global context" unless stated otherwise. No axiom is added here.
* The reading of the C++ source: the tie between the code and the model is the cited lines.
* Simplifications common to all models:
  * `double` is modelled by the exact reals: **rounding, overflow, NaN are not modelled**, except in
    `rescale_b64` of EdgeModel, in RstModel, FltModel (C129-C131) UniModel (C132-C134) and UniMeshModel (C135), which compute in IEEE binary64
    (Flocq, round to nearest even, no fused multiply-add; the coordinate of a uniform DDC grid is origin + i * step);
  * `int`/`size_t` indices are modelled by unbounded `Z`/`nat` unless the property is about wrap-around;
  * Kokkos/DDC parallel loops are modelled by sequential loops or by pointwise functions – their
    iterations write disjoint elements in the modelled code (each model says so);
  * DDC discrete spaces (`ddc::coordinate`, `ddc::DiscreteElement`, chunks) are modelled by functions
    from indices to reals; strides and memory spaces are not modelled except where stated;
  * template instantiation is modelled by ordinary parameters.
* Oracles (hypotheses of theorems, never axioms): LAPACK (`lapack_correct`: solves every regular /
  positive definite system; `MatrixOracle.v` shows the hypothesis satisfiable), MPI_Alltoall (its
  standard semantics), Ginkgo, DDC spline evaluation.

## Per-property plan

| id | modelled | how proved |
|----|----------|------------|
| C01 | all six storage classes with buffers, get/set, constructors | induction over write histories, refinement to "last write" |
| C02 | the three factories | corollary of a filling lemma for any request |
| C03 | factorise/solve of block classes, LAPACK as oracle | loop invariants, block elimination algebra, Schur complement regularity |
| C04 | transposed solve | same |
| C05 | periodic compressed corner block | cyclic distance arithmetic, dead-cell invariant |
| C06 | centre block permutation with memcpy (overlap = Ub) | permutation lemma; findings as `_refuted` |
| C07 | Thomas algorithm of MatrixBatchTridiag | loop invariants on the forward and backward sweeps |
| C08 | convert_coo_to_csr counters | invariant of the counting/permuting loops |
| C09, C10, C11 | Euler, RK2, RK3, RK4, Crank-Nicolson over an abstract vector space of fields | algebra, induction on the fixed-point loop |
| C12, C13 | MPILayout recursion, all-to-all transpose | arithmetic on gcd, index bijections |
| C14, C15, C16 | quadrature coefficient builders and operator | telescoping sums, field arithmetic |
| C17 | CentralFDMPartialDerivative | field arithmetic |
| C18 | restrict_to_idx_range | floor arithmetic |
| C19, C20, C21, C45 | tensor index arithmetic, tensor_mul, permutation parity, assign_elements (TensorModel.v) | induction on lists of extents; flattening of the loop over the unique indices into a nested Einstein sum; Leibniz = Laplace expansion |
| C22, C23, C46 | Lagrange bases, identity builder and 1D evaluator incl. bisection, node tolerance, periodic folding (LagrangeModel.v; not the derivatives and the N-D recursion) | factor theorem on coefficient lists, barycentric identity, bisection invariant, stencil arithmetic |
| C24–C28 | analytic mappings, Jacobians, metric | derivatives (stdlib `derivable_pt_lim`), field arithmetic |
| C47 | CombinedMapping, InvJacobianOPoint | product of inverses for any dimension; composed map in closed form, derivatives by Coquelicot `auto_derive` restated with stdlib `derivable_pt_lim` |
| C48 | LinearCoordTransform, OrthogonalCoordTransforms of two | derivatives; refutation when the argument order is swapped |
| C29–C32 | Krook sources, masks, inter-species collisions | real analysis and algebra |
| C33, C34 | charge density, species initialisation | list reasoning; finding on adiabatic species |
| C35, C53 | edge transformation and matching slices; the uniform branch both in exact arithmetic and in IEEE binary64 (Flocq definitions, no axiom beyond Reals) | field arithmetic, gcd, induction over the search loop, evaluation of binary64 |
| C54 | onion patch locator (constructor, binary search with its three outcomes), multipatch evaluator (radial clamp, angle wrapping, locate, evaluate, extrapolate); B-spline basis values are an oracle | induction over the bisection interval, Int_part arithmetic |
| C55 | FFT Poisson solver: spectral coordinates, half mesh, division by the symbol, differentiation, batch loop over arrays which may alias; ddc::fft and ddc::ifft are the discrete Fourier transform on the half mesh (oracle), an ifft may destroy its input | orthogonality of discrete waves by induction over the dimensions, half-to-full spectrum, linearity |
| C56 | BslAdvectionSpatial / BslAdvectionVelocity / BslAdvection1D / NullAdvectionVelocity: species, batch and point loops with the shared preallocated buffers (feet, coefficients) and an arbitrary visiting order; the interpolation is an abstract pair (build, eval); time integration of the foot by the four steppers | fold over an arbitrary order of lines, frame argument for the buffers; exactness hypotheses discharged for the library's Lagrange evaluator |
| C57 | the same with the Lagrange basis, identity builder and evaluator of C18/C46 | the weights of one stencil at all the points of a uniform periodic grid are the same; cyclic reindexing of sums |
| C36 | connectivity type lists | list induction |
| C37 | derivative field addressing | mixed-radix bijection |
| C49 | predictor-corrector loop, abstract Boltzmann and QN solvers | induction over the steps |
| C58 | SplinePolarFootFinder: velocity, update, loops, unification; mappings of C31; interpolation oracle | one stage = one stage of the textbook method in the plane, composed with the inverse mapping and the angular restriction of C18; order from C09 |
| C59 | the three operators of BslAdvectionPolar over the same | the loops commute; the constant and zero fields are fixed by every stage |
| C60 | FEM1DPoissonSolver: assembly by get/+=/set on the matrix classes of C01-C05, right-hand side by atomic additions in any order, in-place solve, boundary conditions, evaluation | the assembled matrix is the Gram matrix of the derivatives (invariant over the loops); definiteness of the quadrature form gives the regularity C03/C04 ask for; rows of the system = weak form |
| C61 | same | uniqueness of the Galerkin solution; Pythagoras for the best approximation |
| C62 | norm, Gradient, Curl written with the index_tensor / tensor_mul of TensorModel on the metrics and Jacobians of MappingModel; loops over fields | tensor_mul theorem of C20 reduces them to sums; polynomial identities in the Jacobian; multivariate chain rule proved for the functions of the physical position |
| C63 | LiePoissonBracket, scalar, vector and field versions, same tensor model | eps^{ijk} J_ai J_bj J_ck = det J eps_abc by ring |
| C64 | GradientCreator, constant / spline 1D / spline 2D partial derivative creators, shared cache of C44 | induction on the list of operators; history theorem of C44 |
| C65 | GyroAverageOperator::operator(), batch / grid / copy loops in any order, circular mappings of MappingModel | sums of cosines (FftProofs) for the quadratic case; loop invariants; counterexample for the last angle |
| C66 | combination enumeration loop on the int array, table at a node, 1D evaluator with derivative orders | enumeration = elementary symmetric functions (invariant over the lexicographic state); Taylor coefficients as sequences, partial fractions for the node recurrence; Taylor coefficients determine the derivatives |
| C67 | ND evaluator by recursion over the list of dimensions, ND builder copying boxes of indices | induction over the dimensions on C66; box membership for the copies; counterexamples |
| C68 | constructor checks, the recursion over three slots on both patches (arrays of weights indexed from either end), Greville correction, function coefficients, constructor with a number of cells | C2 conditions and Hermite formula derived from the cubic pieces; elimination of one derivative per step as an invariant (relation for all consistent data, bounds on the ratio of coefficients so that no denominator vanishes); summation order for both orientations |
| C69 | explicit formula with the sequence u_n = (2+sqrt 3)^n - (2-sqrt 3)^n | recurrence of u, discrete Green identity and summation by parts for any number of cells; positivity of the denominator; counterexample for different steps |
| C70 | eval_basis of the triangular Bernstein basis with 64-bit factorials | multinomial coefficients fit in 64 bits for D <= 20, trinomial theorem; counterexample for 21 |
| C71 | get_polar_index (with its loop), get_2d_index, get_tensor_product_subset | Euclidean division |
| C72 | constructor (control points, triangle, Bernstein values, periodic repetition), eval, eval_no_bc | invariants of the filling loops, barycentric coordinates reproduce affine functions, Cox - de Boor partition of unity and positivity |
| C73 | same | the i-th B-spline vanishes like r^i at a clamped end, by induction over the degree |
| C74 | eval with wrap and extrapolation rule, deriv | B-splines of neighbouring cells agree at the common breakpoint, translation of the knots; counterexamples |
| C75 | PolarSplines::integrals | Riemann integrals cell by cell (Coquelicot), exchange of sums |
| C76 | operator(), jacobian_matrix, jacobian_component, jacobian, first_order_jacobian_matrix_r_rtheta | derivative of the cell polynomials, limits at the pole |
| C77 | constructor of the assembler: init_nnz_per_line, setup_sparse_matrix with its parallel loops | the loops write disjoint ranges; enumeration of the columns of each kind of row |
| C78 | update_coefficients, weak integrals of each kind of pair, quadrature volumes | window sums around the pole, the boundary and the periodic seam; commutation of atomic additions |
| C79 | right-hand side assembly, operator() (spline and grid) | the residual tested against v |
| C80 | same | linear independence of the derivatives of B-splines at the quadrature points, elimination |
| C81 | same | counterexamples computed in the kernel |
| C82 | AdvectionFieldFinder (x, y) overload, linearisation at the O-point | chain rule uniqueness, 2x2 inverse algebra, C73 for polar splines |
| C83 | AdvectionFieldFinder (r, theta) overload | metric cancellation, stream function, derivative of products |
| C84 | documented direction of the time solvers | counter-example |
| C85 | BslPredCorrRTheta with RK2, all buffers and mirrors | symbolic execution of the memory, induction over the steps |
| C86 | BslExplicitPredCorrRTheta | the same; counter-examples on one-point grids |
| C87 | BslImplicitPredCorrRTheta | the same, with the loop invariant of implicit_loop |
| C88 | implicit_loop | loop invariant, contraction estimates |
| C89 | the three solvers | induction over the steps |
| C90 | DiocotronDensitySolution: constructor, dispersion_relation with ipow and int arithmetic (GciModel) | the discriminant cases give the root with the largest imaginary part; field identities; a concrete geometry refutes the documented coefficients |
| C91 | equilibrium, initialisation (GciModel) | bounds of exp, primitive of the cosine (Coquelicot is_RInt_derive) |
| C92 | find_equilibrium with the running maxima, do-while, unification of the first row; set_equilibrium (GciModel) | induction on the remaining iterations, in both directions; scaling lemmas |
| C93 | set_initialisation, Kelvin-Helmholtz at a point (GciModel) | bounds of exp and cos, primitives |
| C94 | PredCorrRK2XY::operator() with RK2::update and the two lambdas, events (GciModel) | the loop is a trajectory of the step relation (induction), determinism of the step |
| C95 | `MxwModel`, `XVxModel`: maxwellian, two_maxwellian; `MxwSpec`: integrals over the whole line as limits of Riemann integrals (Coquelicot) | Gaussian integral by differentiation under the integral sign (`MxwGauss`), moments by induction on the order by parts, tail bound from the same identity |
| C96 | maxwellian_xy, perturbation_xy, perturbed_xy | product of two one-dimensional Maxwellians; iterated integrals |
| C97 | maxwellian_vm, no_perturbation | product of a Maxwellian and an exponential; primitives and decay; the density for mass <> 1 is refuted |
| C98 | velocity_shape, inter_df, exchange (XVxModel) | decomposition into normal moments |
| C99 | `XyvModel`: charge_density_xy, mpi_charge_density; MPI_Allreduce (sum) as an oracle in exact arithmetic | partition of the velocity grid by the layouts (`XyvRange`), exchange of sums; the adiabatic term is refuted |
| C100 | mpi_split_vlasov, split_vlasov_xy, built on the transposes of `MpiModel` and the advections of `AdvModel`; interpolators arbitrary | each rank's buffer holds the values of one global function; one advection at a time (`XyvVlasov`) |
| C101 | predcorr_xy, qn_solver, `XyvFftModel`: fft_poisson | induction on the steps (`XyvRun`); the FFT solver ignores constants (`XyvFft`) |
| C102 | `DmbModel`: set_values (any loop order), build_mapping, mapping_o_point; DDC's 2D builder and evaluator as oracles (`DmbSpec`: interpolation, unisolvence of the points) | loop invariant; unisolvence in theta at r = 0 (`DmbProofs`) |
| C103 | the same, with circ_apply (MappingModel) | tensor-product unisolvence; splines reproduce x by the Cox - de Boor recursion (`DmbCirc`) |
| C104 | refined_break_points, build_refined (double as R: the last break point is r_max only up to rounding in floating point) | loop invariant, C102 on the refined spaces (`DmbRefined`) |
| C105 | `MshModel`: both builders, rand() an arbitrary sequence; double is R | loop invariant (`MshMesh`) |
| C106 | get_sampling with the caller's vector as output, the scan of the points, DDC's spline space as an oracle for the knots | invariants of the scan: soundness always, exactness without empty inner cells (`MshScan`, `MshMain`) |
| C107 | both overloads, std::filesystem::path::extension and strtol written out; the yaml parser is not modelled | string lemmas, induction on decimal representations (`MshCli`) |
| C108 | `RstModel`: main of the 1d1v executables, their PDI configuration, RestartInitialisation on top of the model of PredCorr; a disk whose files are opened then completed, a crash between any two operations; the library PDI is modelled from its configuration | invariant over all histories, closed form of the operations of a session (`RstProofs`) |
| C109 | the same with the guiding centre and collision executables | closed forms, divisibility (`RstSched`) |
| C110 | the integer casts in exact arithmetic and in binary64 (Flocq) | monotonicity of rounding (`RstSteps`) |
| C111 | DfbModel: SplineBuilderDerivField2D on the DerivModel memory layout, the four kinds of kernels with their execution space, allocation and order of the nine arguments | kernels fill their arrays (induction over the index list), accepted/rejected accesses from C37, interpolation for any interpolating builder; a memory content for every table of data |
| C112 | GkoModel: to_gko_multivector, check_conv as a chunked reduction, write_log/save_logger, ELL and CSR solve on an address-level memory, Ginkgo's iterations as an oracle | load/store of whole views, reduction over any permutation of the indices, loop invariant over attempted systems; counterexamples for padding and for the absolute/relative criterion |
| C113 | Fields over any list of dimensions as layout-right arrays (ColModel) | loop invariant; the n-th index is stored at place n |
| C114 | Constructor of CollisionConfigurationData for any geometry, VparMu configuration, arguments of koliop_Create | stepwise; N.land test equivalent to being a power of two |
| C115 | Programs creating/copying/applying/destroying operators over a koliop oracle (handles, asynchronous queue, statuses) | refinement of an abstract semantics by induction, handle bookkeeping up to permutation |
| C116 | Vector fields as tags and strided views over a memory with free/raw/value slots (VfdModel) | induction on the components, addresses injective by mixed radix |
| C117 | operator[] with indices and with ranges | address equation addr slice p = addr field (overlay p) |
| C118 | deepcopy component by component, position by position | loop invariant over positions, disjoint memories |
| C119 | pdi_helper.hpp over a file oracle | induction on the pairs |
| C120 | doubles as reals, infinities and NaN; reductions as trees (NrmModel) | least upper bound, unique, over the leaves of the tree |
| C121 | norms by quadrature over the model of C16 | sums over lists of points, Cauchy-Schwarz by induction |
| C122 | tuples indexed by types, patches with data, buffers (MpbModel) | lists of pairs filtered by type, induction on the patches |
| C123 | boundary conditions by the model of equivalent_edge_t (C36), calls of the builders over a memory, DDC's builder a parameter | induction on the calls with a frame condition |
| C124 | same with two dimensions and eight derivatives | same |
| C125 | mdspan = buffer, base, extents, strides; the recursion of stream_impl with std::size_t bounds (`UtlModel`) | induction on the dimensions: closed form of the text, prefix-freeness |
| C126 | YAML tree as an oracle by path, the reading loops, the cast to int, the memory of PCpp_string | loop invariant on the species; exact outcome in all cases |
| C127 | choice by text, sequence of initialisations of DDC for each pair of template parameters | case analysis over all files and arrays |
| C128 | duration_cast as truncated division | arithmetic of truncated division |
| C129 | restrict_to_idx_range in binary64 (Flocq), loops with fuel, far branch as a parameter (`FltModel`) | invariants of the loops with error bounds; counterexamples computed by the kernel |
| C130 | the floor wrapping in binary64 | rounding-error analysis; exactness for powers of two; counterexample |
| C131 | bisection of getclosest in binary64 with and without assertions | invariant: the ends enclose the coordinate; endless loop by induction on the fuel |
| C132 | uniform getclosest, non-periodic find_stencil and the assertions of eval_basis in binary64 (`UniModel`) | rounding-error analysis of the quotient, monotone rounding of the knots; counterexample computed by the kernel |
| C133 | check_if_node with its assertions in binary64 (`UniModel`) | rounding-error analysis of the offset; exact monotone rounding of the tolerance tests; counterexample |
| C134 | periodic find_stencil and eval_basis in binary64 (`UniModel`) | error bounds of knots, quotient and moved coordinate; counterexample |
| C135 | build_uniform_break_points in binary64 (`UniMeshModel`) | error bound of each point against the exact mesh, induction on the loop; counterexample |
| C50 | kinetic source and its spatial/velocity profiles | finite sums, exact moments of a Maxwellian |
| C51 | intra-species collisions (coefficients, matrix, right-hand side) | derivative of the erf-based coefficient, summation by parts |
| C52 | fluid moments, equilibria, perturbation | finite sums, trigonometry |
| C38 | split solvers as compositions of operators | algebra of compositions |
| C39, C40 | small tensors, integer helpers | ring/field, induction |
| C41, C42 | batched ELL accessors, CSR solver preparation | injectivity of offsets; findings as `_refuted` |
| C43 | Gauss-Legendre tables and mesh assembly | exact rational evaluation of the tables, affine change of variables |
| C44 | SplineBuilder2DCache flags | induction over call histories |

What is *not* modelled: GPU execution and races, I/O (HDF5/PDI/YAML), Ginkgo iterative solvers'
convergence, spline builders of DDC, performance. Sections below record what each area leaves out.

## Findings (theorems named `_refuted`)

Each is a statement that a reader of the documentation would not expect: the negation of the full
property, proved of the model (list regenerated by tools/findings.py).

- `C01_dense_range_check_refuted` (Properties_Matrix.v): Matrix_Dense::set_element checks no bound; writing the non-existent element (n,0) succeeds and changes element (0,1).
- `C03_corner_solve_multiple_refuted` (Properties_Matrix.v): solve_multiple_inplace of the block classes cannot be called with the documented layout (number of systems x n) unless there are exactly n systems...
- `C06_block1_position_refuted` (Properties_Matrix.v): matrix.hpp documents block1_size as the size of the top-left dense block A; with the default block2_size = 0 the banded region is stored top-left instead, so an element of the first row (inside the dense blocks A, B) is rejected.
- `C06_centre_solve_multiple_refuted` (Properties_Matrix.v): with several right-hand sides the scratch array (one column long) overflows.
- `C06_large_first_block_refuted` (Properties_Matrix.v): when the first block is larger than the banded region, solve_inplace calls memcpy on overlapping ranges, for every right-hand side.
- `C07_stability_check_sound_refuted` (Properties_Batch.v): the check accepts matrices on which the algorithm divides by zero, accepts a non-symmetric non-dominant matrix and rejects a symmetric positive definite one.
- `C07_stability_check_symmetry_refuted` (Properties_Batch.v): the check accepts matrices on which the algorithm divides by zero, accepts a non-symmetric non-dominant matrix and rejects a symmetric positive definite one.
- `C08_unsorted_triplets_refuted` (Properties_Batch.v): with unsorted rows every matrix but the first is wrong.
- `C105_random_beyond_refuted` (Properties_Msh.v): a non_uniformity above 1 is accepted and may give decreasing break points.
- `C105_random_default_refuted` (Properties_Msh.v): with the default non_uniformity = 1 of build_random_non_uniform_break_points two consecutive break points may coincide (rand() = RAND_MAX then 0): the mesh has an empty cell.
- `C106_argument_refuted` (Properties_Msh.v): interp_points is documented as an input, but with periodic splines a point is appended to the vector of the caller; a second call with the same vector throws.
- `C106_crowded_refuted` (Properties_Msh.v): the index of the current cell advances by one cell per point, so it lags behind after an empty cell and an overconstrained cell is accepted: here four of the five points are in the last cell of a space of degree 1.
- `C106_inner_refuted` (Properties_Msh.v): the uniform branch takes the step from the length of the domain, not from the points: equally spaced points that do not go from one end of the domain to the other are refused as "not uniform".
- `C107_dump_refuted` (Properties_Msh.v): --dump-config reports success when the file cannot be created (the stream is not checked).
- `C107_restart_refuted` (Properties_Msh.v): the iteration of a restart is not validated: a word restarts silently from iteration 0, "12abc" from 12, and negative iterations are accepted.
- `C108_changed_diag_refuted` (Properties_Rst.v): iter_saved = iter_start + iter / nbstep_diag (pdi_out.yml.hpp 60) numbers the files of a restart with the current nbstep_diag: after a change of time_diag the numbers of the files are not in the order of their times any more.
- `C108_checkpoint_refuted` (Properties_Rst.v): a restart from file k rewrites file k at its first iteration (pdi_out.yml.hpp 60, 68-72: iter = 0 is saved too, in place): a crash while it does so loses the checkpoint the simulation was restarted from.
- `C108_iteration_argument_refuted` (Properties_Rst.v): src/io/input.hpp:20 documents the argument of --iter-restart as "the index of the iteration from which the simulation should restart"; the executables take it as the number of an output file, i.e. the iteration divided by nbstep_diag.
- `C109_applications_refuted` (Properties_Rst.v): test_collSpVparMu.cpp:136 runs nbiter + 1 iterations, each with an application of the collision operator: the last application is made after the last output and is lost.
- `C109_last_state_refuted` (Properties_Rst.v): the last state of a simulation is written only if nbiter is a multiple of nbstep_diag: the condition '${iter} % ${nbstep_diag} = 0' (pdi_out.yml.hpp 70) also filters the event last_iteration.
- `C109_spacing_refuted` (Properties_Rst.v): the files are not time_diag apart unless it is a multiple of deltat: the delay accumulates from file to file.
- `C110_decimal_refuted` (Properties_Rst.v): int(final_time / delta_t) and int(time_diag / deltat) truncate a rounded quotient: with the doubles of 0.3 and 0.1 there are 2 steps, not 3.
- `C110_polar_refuted` (Properties_Rst.v): iter_nb = final_T * int(1 / dt) (diocotron.cpp:238, vortex_merger.cpp:188) rounds 1 / dt before multiplying: with dt = 0.3 and final_T = 10 there are 30 steps, up to the time 9; a dt above 1 gives no step at all.
- `C110_steady_refuted` (Properties_Rst.v): in the same way test_collSpVparMu.cpp:121-123, time_diag / (time_diag / nbiter), gives 92 for nbiter = 93 and time_diag = 1: the last iteration is not saved.
- `C111_any_execution_space_refuted` (Properties_Dfb.v): fill_in_cross_deriv does not pass the execution space to parallel_for_each (285-287): a builder on the host in a build whose default execution space is a device (or conversely) runs the kernel of the mixed derivatives where the memory is not accessible, although the field provides everything; without mixed derivatives the same class works.
- `C111_missing_derivatives_detected_refuted` (Properties_Dfb.v): "Check that the DerivField contains the necessary derivatives for the builder" (line 95) is a comment without code: a field with too few derivatives is never reported by an exception, and it makes the kernels read outside the field.
- `C112_ell_criterion_refuted` (Properties_Gko.v): MatrixBatchEll documents (and configures) the relative stopping criterion || A x - b || / || b || < tol but check_conv compares the absolute residual norm with tol: a solve whose systems all meet the criterion throws "did not converge" when || b || is large, and a solve whose solver gave up (here with the solution 0) returns normally when || b || is small.
- `C112_log_agrees_with_outcome_refuted` (Properties_Gko.v): with MatrixBatchCsr and one solver per system the solver stops on the relative criterion while the log compares the absolute residual: a solve which converged (no exception) writes "did not converge!" in its log.
- `C112_view_refuted` (Properties_Gko.v): to_gko_multivector promises to accept every 2-D view with unit stride in the second dimension, but it drops the first stride: in a padded view (or a subview of a larger array) every system after the first one is read from the wrong place, without an error.
- `C114_coefficients_checked_refuted` (Properties_Col.v): nothing compares the index ranges of the quadrature coefficients with the distribution function's: with coefficients for fewer points a configuration is built all the same, and koliop, which only gets the pointer, reads beyond their end.
- `C114_every_dimension_refuted` (Properties_Col.v): the error message says that "the number of points in each dimension must be a power of 2", but only r, theta and phi are tested: 3 points in mu, vpar or species are accepted.
- `C114_mu_uniform_refuted` (Properties_Col.v): the static assertion "The grid must be uniform in the mu direction." tests the vpar grid (collision_common_configuration.hpp 124-126): a non-uniform mu grid is accepted.
- `C115_copies_refuted` (Properties_Col.v): CollisionOperator declares a destructor which releases the koliop handle, but neither deletes nor defines its copy operations: a copied operator (returned by value from a function without elision, stored in a vector, captured by value ...) shares the handle, so the handle is released twice, and the survivor of the two works on a released handle.
- `C115_sizes_checked_refuted` (Properties_Col.v): operator() passes only a pointer to koliop: a distribution function on a smaller index range than the one of the configuration is not rejected, and memory beyond its end is modified.
- `C116_ranges_refuted` (Properties_Vfd.v): a VectorField built from fields which do not have the same index range is accepted; its idx_range() is that of the first component and reading it at a point of idx_range() is then out of bounds (vector_field.hpp 298-303, vector_field_common.hpp 135-138).
- `C119_pdi_get_arrays_missing_refuted` (Properties_Vfd.v): PDI_get_arrays does not notice that an array is missing: if its event reads nothing its vector is silently made of zeros, and if the size is missing too the vector is resized with an uninitialised number (pdi_helper.hpp 19-34: sizes is not initialised, the status of PDI_event is not looked at).
- `C119_pdi_get_arrays_odd_refuted` (Properties_Vfd.v): an odd number of trailing arguments is accepted by PDI_get_arrays (sizeof...(Args) / 2 + 1): the last name is dropped silently and nothing is read for it (pdi_helper.hpp 67).
- `C120_nan_refuted` (Properties_Nrm.v): the infinity norms ignore NaN: the norm (and the error) of a vector field made of NaN is 0, and on several patches a patch of NaN is ignored by std::max even when its own norm is NaN (l_norm_tools.hpp 30 and 53, multipatch_math_tools.hpp 23 and 51). A solution which has become NaN is then reported as exact.
- `C120_nan_schedule_refuted` (Properties_Nrm.v): with one NaN among the values the norm depends on the order in which the reduction combines the points (with a reducer which is a comparison).
- `C121_negative_coefficient_refuted` (Properties_Nrm.v): with a negative quadrature coefficient the norm L2 may be NaN.
- `C121_unchecked_range_refuted` (Properties_Nrm.v): the norms by quadrature pass a lambda function to the quadrature, so that its check that the index range of the field contains that of the coefficients is not compiled: a smaller field is read out of bounds, even in debug mode (l_norm_tools.hpp 245-247, 266-270, 295-297, 316-321; quadrature.hpp 72-77).
- `C122_field_mem_args_refuted` (Properties_Mpb.v): the constructors MultipatchFieldMem(label, args...) and MultipatchFieldMem(args...) never compile: the label is passed on to a constructor which takes the fields only (multipatch_field_mem.hpp 81-87, multipatch_type.hpp 63-66).
- `C122_same_type_refuted` (Properties_Mpb.v): get<Patch> selects by the type T<Patch>: with a T which gives the same type to two patches (a number per patch, for example) the object can be built but no get<Patch> compiles (multipatch_type.hpp 121-125, multipatch_field.hpp 151-155).
- `C125_empty_refuted` (Properties_Utl.v): printing a view whose last dimension is empty reads outside the array: extent - 1 is computed in std::size_t (view.hpp 57 and 60).
- `C126_nbiter_refuted` (Properties_Utl.v): the number of iterations is read as a long and cast to int without a check (vlasovpoisson_xvx_fft.cpp 99 and three other executables; singlemodeperturbinitialisation.cpp 68): 2^31 to 2^32 - 1 iterations run none at all, 2^32 + n run n, without any message.
- `C126_string_refuted` (Properties_Utl.v): PCpp_string leaks the string of the library when the copy throws std::bad_alloc (paraconfpp.hpp 67).
- `C127_mesh_file_refuted` (Properties_Utl.v): src/io/input.hpp 52-55 documents that non-uniform B-splines are read from the file named by the entry SplineMesh.<id>_MeshFile; no entry of the configuration is read in this case: the arrays come from the PDI event read_<id>.
- `C129_ends_refuted` (Properties_Flt.v): FINDING (src/utils/ddc_helper.hpp 108-111): when the period is below the spacing of the doubles at x_min (x_min = 2^60, length = 1) the loop of restrict_to_idx_range does not end: subtracting the period changes nothing.
- `C129_refuted` (Properties_Flt.v): FINDING (src/utils/ddc_helper.hpp 92-113): restrict_to_idx_range can return a coordinate below the domain. On the domain [0.2, 1.2) (x_min = 0.2, length = 1.0) the coordinate 1.2 becomes 0.19999999999999996: the last subtraction is rounded and nothing checks the lower end again.
- `C130_refuted` (Properties_Flt.v): FINDING (src/utils/ddc_helper.hpp 128-140 and src/interpolation/lagrange_evaluator.hpp 458-467): the wrapping with floor can return a coordinate below the domain. On the domain [0, 1.1] the coordinate 7.7 becomes -8.88e-16: the quotient 7.7 / 1.1 is rounded to 7 and the product 7 * 1.1 is rounded above 7.7.
- `C131_asserts_refuted` (Properties_Flt.v): FINDING (src/interpolation/lagrange_evaluator.hpp 601-602): ... and aborts when KOKKOS_ASSERT is enabled.
- `C131_refuted` (Properties_Flt.v): FINDING (src/interpolation/lagrange_evaluator.hpp 458-476 and 599-613): a periodic non-uniform Lagrange evaluator does not return for some coordinates. With the break points 0, 0.5, 1.1 and the coordinate 7.7, the wrapped coordinate is below the first break point (C130) and the bisection loops for ever...
- `C132_end_refuted` (Properties_Uni.v): assertions disabled, the stencil of degree 1 can end before the coordinate
- `C132_refuted` (Properties_Uni.v): FINDING (src/interpolation/lagrange_evaluator.hpp 594-598 and src/interpolation/lagrange_basis_uniform.hpp 235): a uniform Lagrange evaluator of degree 1 aborts (KOKKOS_ASSERT) for a coordinate inside the domain. With the knots -1 + 0.7 i the coordinate 1.0999999999999999, which is above the knot 3 (1.0999999999999996), is given to the cell 2: the quotient (x - origin) / step is rounded below 3.
- `C133_refuted` (Properties_Uni.v): origin 2^51, step 0.1 (below the spacing of the doubles): an assertion fails at a knot
- `C134_refuted` (Properties_Uni.v): FINDING (src/interpolation/lagrange_evaluator.hpp 594-598 and src/interpolation/lagrange_basis_uniform.hpp 235): the same coordinate as in C132 makes the periodic evaluator of degree 1 abort, on a grid resolved by the doubles.
- `C135_refuted` (Properties_Uni.v): 4 cells between 2^53 and 2^53 + 2: the first two points are equal
- `C13_distributed_order_refuted` (Properties_Mpi.v): when the distributed dimensions are not listed in the order of the data -- as in the repository's own test layout <YZWX; W, Z> -- the operator succeeds but sends blocks to the wrong ranks as soon as two distributed dimensions are really split (4 ranks; the test uses 2). The layout is otherwise well formed and no check rejects it.
- `C15_one_cell_mixed_refuted` (Properties_Quad.v): C15, findings: the parity check accepts a periodic range of two points, and the mixed rule a range of two points, but the unsigned loop bound size/2 - 1 - 1 wraps around.
- `C15_two_periodic_points_refuted` (Properties_Quad.v): C15, findings: the parity check accepts a periodic range of two points, and the mixed rule a range of two points, but the unsigned loop bound size/2 - 1 - 1 wraps around.
- `C22_smallest_periodic_refuted` (Properties_Lagrange.v): with the smallest number of points the constructors accept (D+1 break points) the builder of a periodic basis reads more values than there are
- `C22_sub_range_refuted` (Properties_Lagrange.v): a non-uniform basis on a sub-range of its grid does not use the points of the sub-range
- `C26_cartesian_to_cylindrical_component_refuted` (Properties_Mapping.v): its component accessor cannot be instantiated: no dimension passes both conditions on its first tag
- `C30_multicharge_refuted` (Properties_XVx.v): ... and for an ion of charge 2 even a neutral plasma (2 n_ion = n_electron) becomes charged.
- `C30_nonneutral_refuted` (Properties_XVx.v): The full property fails: where the plasma is not already neutral the charge changes ...
- `C31_extent_half_refuted` (Properties_XVx.v): extent = 1/2 is accepted but the normal mask is then zero and cannot be normalised
- `C31_extent_zero_refuted` (Properties_XVx.v): extent = 0 is accepted but both masks are then zero: they do not sum to one, and the normalised one has no unit integral
- `C33_adiabatic_refuted` (Properties_Species.v): the full statement, with the charge of the adiabatic species when there is one, is false: with one kinetic ion species the adiabatic electrons (charge -1, species 1 of the table) are never added, whatever the distribution function.
- `C34_mass_of_adiabatic_electron_refuted` (Properties_Species.v): mass(ielec()), used by the collision operators, is out of bounds whenever the electrons are adiabatic: the claim that every look-up in the range of species is in bounds is false.
- `C34_restart_adiabatic_refuted` (Properties_Species.v): ... but a run with adiabatic electrons cannot be restarted from its kinetic species
- `C35_single_point_refuted` (Properties_Edge.v): "the search ends on every grid": with a one-point target it never does
- `C35_uniform_float_refuted` (Properties_Edge.v): with 32 cells against 123 the rounding of the ratio makes the search return index 122 for the last point, whose counterpart is 123
- `C36_double_edge_refuted` (Properties_Conn.v): a connectivity in which an edge belongs to two interfaces is accepted, and the edge relation is then not symmetric.
- `C36_reversed_ring_refuted` (Properties_Conn.v): on a closed line whose starting patch is left into a BACK edge (the neighbour's coordinate runs the other way) the interfaces are listed twice, once in each direction.
- `C36_reversed_row_refuted` (Properties_Conn.v): on an open line which crosses some patch from BACK to FRONT the listed interfaces are not chained: here the first patch (number 1) is entered from the outside by the first interface, but the second listed interface starts with its other edge on patch 0.
- `C37_index_slice_refuted` (Properties_Deriv.v): without that proviso the field declares the whole grid while the memory region only has the positions where derivatives are known: index 3 (second grid point) reads the derivative stored for index 11, and index 11 itself is out of bounds.
- `C37_move_assignment_refuted` (Properties_Deriv.v): move assignment is part of the interface, but it copies the pointers: afterwards both objects free the same blocks, and the previous blocks of the destination are lost.
- `C37_order_unchecked_refuted` (Properties_Deriv.v): an order above NDerivs is not caught by any assertion: the access is out of bounds.
- `C38_rhs_order_refuted` (Properties_Species.v): with two right-hand sides that do not commute it is not: the second half-steps are applied in the same order as the first ones, and the step is not time reversible although both flows (a translation and a dilation of the line) are.
- `C40_factorial_21_refuted` (Properties_Math.v): the result is silently wrong from 21 on
- `C40_ipow_int_min_refuted` (Properties_Math.v): ipow(a, INT_MIN): the negation of the exponent overflows
- `C40_neg_1_pow_negative_refuted` (Properties_Math.v): for every negative odd argument the result is 3, not -1
- `C41_range_check_refuted` (Properties_Batch.v): the range assertion accepts column nnz: the access leaves the buffer for the last matrix, and addresses column 0 of the next matrix otherwise.
- `C42_batch_preserved_refuted` (Properties_Batch.v): with two or more matrices the shared column indices are sorted together with the values of the first matrix only.
- `C44_stale_coefficients_refuted` (Properties_Math.v): without it (only the other dimension is asked for with a new field, or the order changes) a call returns the coefficients of another field
- `C48_identity_inverse_refuted` (Properties_DiffOp.v): Between two different bases the inverse Jacobian matrix of the identity is declared with the index sets of the Jacobian matrix itself (result, dual of the argument): it cannot be used as an inverse Jacobian (identity_coordinate_change.hpp 116-144).
- `C48_product_jacobian_refuted` (Properties_Mapping.v): not otherwise
- `C49_null_solver_refuted` (Properties_Species.v): with NullQNSolver the advections use a field nobody has initialised
- `C51_front_refuted` (Properties_CollIntra.v): "the index range may start anywhere in the grid": with a front of index 2 or more the ghosted points are written out of bounds
- `C53_periodic_refuted` (Properties_Edge.v): periodic uniform edges (4 and 8 cells): the slices pair points that do not coincide and miss the common points
- `C53_reversed_refuted` (Properties_Edge.v): non uniform edges of opposite orientation: the second slice always has a single element and a negative stride
- `C53_single_match_refuted` (Properties_Edge.v): periodic edges with a single common point: out of bounds read
- `C54_gap_refuted` (Properties_Onion.v): two patches may be separated by up to 1e-14; a point of the gap is sent to the outer patch, which does not contain it
- `C55_nyquist_refuted` (Properties_Fft.v): with an even number of points in a direction other than the last, a component of the density at the Nyquist frequency of that direction gives a spurious electric field: the frequency N/2 has the coordinate -N/2 alone. 2 x 4 points, rho(x, y) = cos(pi x) cos(pi y / 2): the exact E_x vanishes at the grid point (0, 1), the computed one does not.
- `C60_no_interior_function_refuted` (Properties_Fem.v): with a single cell of degree 1 there is no unknown left and the constructor fails on an assertion instead of returning phi = 0.
- `C64_two_orders_refuted` (Properties_DiffOp.v): Two gradient creators that share a cache but list the dimensions in different orders: after the first was used on f, the second gives for g the derivative of f in its first dimension.
- `C65_last_angle_refuted` (Properties_Gyro.v): FINDING: gyroaverage_operator.hpp 228-231 overwrites the last angle of every ring with the value of the first one. The index range of a periodic angle (as in the operator's own test, which takes the interpolation points of a periodic spline: 0, ..., 2 pi (n - 1) / n) does not repeat its first point, so the gyroaverage at the last angle is lost: for every affine field reproduced by the splines which differs at the two points, the stored value is not the mean over the orbit of the grid point. (The test TestPeriodicity asserts the wrong value; TestAnalytical never looks at the last angle.)
- `C67_extrapolation_refuted` (Properties_LagDeriv.v): FINDING: nd_lagrange_evaluator.hpp says (29-31, 426-427) that the last one-dimensional evaluator applies its configured extrapolation rules, but calls eval_no_bc: a coordinate outside the domain of any dimension (also of a periodic one, which is not folded back) fails an assertion, in the head as well as in the last dimension.
- `C67_two_periodic_refuted` (Properties_LagDeriv.v): With two periodic dimensions (not supported according to the note of the header, 92-96, but accepted and partly processed) the coefficients of the indices that lie in the repeated part of one dimension only are left as they were: the second copy starts from the repeated part of the first dimension instead of the whole of it.
- `C68_one_cell_refuted` (Properties_Ifd.v): FINDING C68: the check "Please provide at least 2 cells" (lines 529-534) compares the number of points with 2, so one cell passes it and the run stops at the assertion of get_cell_lengths (or reads outside of the range when the assertions are compiled out).
- `C68_two_cells_extra_1_refuted` (Properties_Ifd.v): FINDING C68: with two cells and an extra interpolation point on one of the patches, the constructor succeeds but the relation is false (already for s(x) = x^2), whatever the grids and the orientations. The second cell of the patch is eliminated before the loop as if the extra point were a break point (lines 591-621, 664-692), then the correction of the last cell (lines 837-951, with n = 1) takes the two slots for those of the points n-1 and n, which are those of the points n and n+1.
- `C68_two_cells_extra_2_refuted` (Properties_Ifd.v): FINDING C68: with two cells and an extra interpolation point on one of the patches, the constructor succeeds but the relation is false (already for s(x) = x^2), whatever the grids and the orientations. The second cell of the patch is eliminated before the loop as if the extra point were a break point (lines 591-621, 664-692), then the correction of the last cell (lines 837-951, with n = 1) takes the two slots for those of the points n-1 and n, which are those of the points n and n+1.
- `C68_two_cells_refuted` (Properties_Ifd.v): FINDING C68: with exactly two cells on patch 1 (and no extra point) on non-uniform grids, the constructor succeeds but the relation of one cell on patch 1 is returned: the relation with the derivative at the far end of patch 1 is false. The slot [2] of the recursion is updated after the two first cells of patch 2 (lines 623-627) but not after those of patch 1 (lines 664-692), and the recursion loop does not run with two cells. Swapping the patches works.
- `C69_different_steps_refuted` (Properties_Ifd.v): FINDING C69: the explicit formula is wrong when the two uniform steps differ, although the class is documented for patches which are uniform one by one ("uniform per patch"): get_cell_lengths called with the interface index of patch 1 (line 978) returns the length of the cell of patch 2 as the left length and that of patch 1 as the right one (lines 1083-1096: left = other patch). Refuted for every pair of steps with two cells on each patch, by the spline s(x) = x.
- `C70_degree_21_refuted` (Properties_Psp.v): FINDING C70: for D = 21 the 64-bit factorial wraps around and the polynomials are wrong without any error: the coefficient 21 of l1 l3^20 is replaced by 5, for every triangle and every point
- `C74_derivative_not_wrapped_refuted` (Properties_Psp.v): FINDING C74: the derivative operators do not wrap the poloidal angle: with a B-spline basis which refuses coordinates outside of its domain (as DDC's does in a debug build), the value at theta = -1 is defined and the derivative is not
- `C74_few_cells_refuted` (Properties_Psp.v): FINDING C74: the constructor accepts every radial space with more than C+1 functions (the assertion compares C+1 with size()), but with at most C+1 radial CELLS every evaluation, at every point, reads coefficients outside of the coefficient array: jmin_r is moved to C+1 and the loop still runs over degree+1 rows (polar_spline_evaluator.hpp: 536-545; the values it multiplies them with are 0)
- `C81_degrees_refuted` (Properties_Ppf.v): nothing forbids B-splines of a different degree in r and in theta, but neither update_coefficients nor operator() ever succeeds with them: the table of the values is sized with the radial degree in both directions
- `C81_few_radial_cells_refuted` (Properties_Ppf.v): with fewer than degree + continuity + 2 radial cells the constructor asks for an index range of negative size
- `C81_five_poloidal_cells_refuted` (Properties_Ppf.v): with 2 degree + 1 poloidal cells (all the functions of a ring overlap) the constructor returns, but 350 of the 419 column indices are never written: first and last poloidal index of the stencil coincide, so that both loops are empty; update_coefficients then uses the unwritten indices
- `C81_four_poloidal_cells_refuted` (Properties_Ppf.v): with fewer than 2 degree + 1 poloidal cells the column indices are written outside of their array: the number of elements is computed with min(2 degree + 1, number of cells), the rows with 2 degree + 1
- `C81_stale_preconditioner_refuted` (Properties_Ppf.v): every call of update_coefficients appends a Ginkgo solver and operator() uses the first one, so that the preconditioner stays that of the first equation (and the memory grows)
- `C84_documented_direction_refuted` (Properties_Adf.v): the time solvers document (A_x, A_y) = (-E_y, E_x) (geometryRTheta/time_solver/README.md:16, bsl_predcorr.hpp:31-33 and the two second order solvers); the field they advect with is (E_y, -E_x) = E x e_z (advection_field_rtheta.hpp:331-335): every vortex turns in the direction opposite to the documented equation.
- `C85_event_time_refuted` (Properties_Pcr.v): bsl_predcorr.hpp:203-207 publishes the state after step iter + 1 with iter + 1 but with the time iter * dt of the previous step (the first step is labelled with time 0, like the initial state).
- `C86_documented_scheme_refuted` (Properties_Pcr.v): bsl_predcorr_second_order_explicit.hpp:286-300 says "we evaluate the advection field A^n at the characteristic feet X^P" but builds the splines of advection_field_predicted = A^P: the corrected density is advected with (A^P(X^P) + A^P(X^n)) / 2, not with the documented (A^n(X^P) + A^P(X^n)) / 2 (lines 49-52, 303).
- `C86_second_order_refuted` (Properties_Pcr.v): because of this the "second order explicit predictor-corrector" is a first order scheme: for a uniform field proportional to an affine density (exact decay exp(-t)), one step has an error of order dt^2, not dt^3.
- `C87_commented_scheme_refuted` (Properties_Pcr.v): bsl_predcorr_second_order_implicit.hpp:296-308 computes (A^n(X^n) + A^n(X^P)) / 2 and announces that rho^P is advected with it, but passes advection_field_k = A^n(X^P) alone to the advection.
- `C87_last_event_refuted` (Properties_Pcr.v): bsl_predcorr_second_order_implicit.hpp:392-401 publishes density_host in the event last_iteration before copying the density of the device into it: with separate memory spaces the last event has the density of time (steps - 1) dt next to the potential of time steps * dt.
- `C88_converged_refuted` (Properties_Pcr.v): bsl_predcorr_second_order_implicit.hpp:441-499: after 50 iterations without convergence the loop returns the last feet without any error or message.
- `C90_documented_refuted` (Properties_Gci.v): diocotron_initialisation_equilibrium.cpp:35-47 multiplies only the first term of b_l and c_l by 1 / (1 - (W1/W2)^(2l)), where the documentation (.hpp:192-224) has the factor in front of the whole sum. With an inner conductor (W1 > 0) the frequency and the growth rate are those of another equation: for (W1, R1, R2, W2) = (1, 2, 3, 4), l = 1, Q = 0 the class reports stable oscillations although the documented relation has a growing solution.
- `C90_filled_disc_refuted` (Properties_Gci.v): a ring that starts at the axis (R1 = 0, W1 = 0) passes the assertions of the constructor, and diocotron_initialisation_equilibrium.cpp:16 has a case for it, but line 11 divides by R1 twice: the frequency and the slope are not finite numbers.
- `C92_converged_refuted` (Properties_Gci.v): when the 25 iterations of vortex_merger_equilibrium.hpp:144 are used up the unconverged state is returned like a converged one; the caller cannot tell.
- `C92_settled_refuted` (Properties_Gci.v): vortex_merger_equilibrium.hpp:144 stops when sigma no longer changes, whatever the potential does: with a linear, symmetric positive definite solver the search returns after one iteration, with sigma unchanged, a potential which is not a solution of its own density.
- `C94_saving_refuted` (Properties_Gci.v): predcorr_RK2.hpp (geometryXY) line 175 hands the density itself, as a modifiable field, to the Poisson solver when it saves the data (the comment at 111-116 says that the solver needs to modify it, and makes a copy in the other place): with a solver that uses this right, saving changes the density.
- `C97_density_any_mass_refuted` (Properties_Mxw.v): for a species of mass m <> 1 the Maxwellian of geometryVparMu does not carry the density it was asked for, with either of the usual volume elements 2 pi B (density n m^(3/2)) and 2 pi B / m (density n m^(1/2)): the mass enters the normalisation (mvm 82-83) but not the parallel energy 0.5 (vpar - Upar)^2 (mvm 98-100), whose Gaussian then has variance T instead of T / m. The header (line 70) documents yet another normalisation, (2 pi T)^1.5.
- `C99_adiabatic_once_refuted` (Properties_Xyv.v): MpiChargeDensityCalculator sums over the ranks densities to which the local calculator has already added the charge of the adiabatic species: with P ranks it is counted P times (one kinetic species and an adiabatic one, as in the Landau simulation, on 2 ranks).
