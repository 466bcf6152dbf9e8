import json
P=[]
def p(title,statement,quant,why,anchors):
    P.append(dict(id="C%02d"%(len(P)+1),title=title,statement=statement,quantifier=quant,why_tests_cant=why,anchors=anchors))

p("Matrix storages are faithful element stores",
  "For the dense, banded and tridiagonal-symmetric matrix classes, after any sequence of legal set_element calls get_element(i,j) returns the last value written to (i,j) (or to its mirror entry for the symmetric class), 0 for an element outside the band, and every access touches only memory inside the allocated buffer; two different stored elements never share a cell.",
  "every matrix order n, every bandwidth kl,ku, every sequence of writes, every (i,j)",
  "tests fix n and the bandwidth and write each element once in order; aliasing or an out-of-buffer offset for one combination of n/kl/ku is not sampled",
  ["src/matrix_tools/matrix_dense.cpp:Matrix_Dense::get_element,set_element","src/matrix_tools/matrix_banded.cpp:Matrix_Banded::get_element,set_element","src/matrix_tools/matrix_pds_tridiag.cpp:Matrix_PDS_Tridiag::get_element,set_element"])
p("All matrix storages are observationally interchangeable",
  "Filling two matrices of different storage classes (dense versus banded versus tridiagonal symmetric) with the same legal writes gives matrices whose get_element agree everywhere, so the factory's choice of storage is unobservable.",
  "every size, bandwidth, write history legal for both classes",
  "the factory picks one class per size; tests never compare all classes on all histories",
  ["src/matrix_tools/matrix.cpp:Matrix::make_new_banded","src/matrix_tools/matrix_banded.cpp","src/matrix_tools/matrix_dense.cpp","src/matrix_tools/matrix_pds_tridiag.cpp"])
p("Block (corner) matrix solve is correct",
  "For a block matrix [[Q,gamma],[lambda,delta]] filled with set_element, factorize() followed by solve_inplace(b) returns x with M x = b where M is the matrix readable through get_element before the factorization, whenever the two inner solvers (Q and the Schur complement) solve their systems.",
  "every size n, every k, every content, every right-hand side",
  "tests use a handful of sizes with diagonally dominant contents and compare to a tolerance",
  ["src/matrix_tools/matrix_corner_block.cpp:factorize,solve_inplace,calculate_delta_to_factorize,solve_lambda_section,solve_gamma_section"])
p("Block (corner) matrix transposed solve is correct",
  "Same as the previous property for solve_transpose_inplace: the result satisfies M^T x = b.",
  "every size n, every k, every content, every right-hand side",
  "transposed solve is exercised on very few matrices; a swapped index in the off-diagonal section is symmetric-invisible on symmetric inputs",
  ["src/matrix_tools/matrix_corner_block.cpp:solve_transpose_inplace,solve_lambda_section_transpose,solve_gamma_section_transpose"])
p("Periodic banded matrix compressed corner storage",
  "The periodic banded matrix behaves as an n x n store whose legal positions are those at cyclic distance at most ku above / kl below the diagonal: reads return the last write, other positions read 0, no two legal positions collide, and the sections used by the solver compute the same sums as the uncompressed lambda block would.",
  "every n, kl, ku accepted by the factory, every write history, every vector",
  "wrap-around distances are only hit at specific (i,j,n) combinations",
  ["src/matrix_tools/matrix_periodic_banded.cpp:get_element,set_element,calculate_delta_to_factorize,solve_lambda_section"])
p("Centre-block matrix is a symmetric permutation of a corner-block matrix",
  "A matrix with a banded region in the middle reads and writes element (i,j) at the permuted position of its corner-block representation, the permutation is a bijection, the vector swaps before and after a solve are mutually inverse and agree with it, hence the centre-block solve solves the original system.",
  "every size, every block split (top, middle, bottom), every vector",
  "off-by-one in a block boundary only appears for particular split sizes",
  ["src/matrix_tools/matrix_centre_block.cpp:adjust_indexes,swap_array_to_corner,swap_array_to_centre,solve_inplace"])
p("Batched tridiagonal solver returns the solution of every system",
  "MatrixBatchTridiag::solve overwrites each right-hand side of the batch by the exact solution of its own tridiagonal system whenever the pivots it meets are non-zero; strictly (row) diagonally dominant systems never meet a zero pivot; other batch entries are untouched.",
  "every batch size, every order n>=1, every matrix and right-hand side (exact arithmetic)",
  "tests use one Laplacian-like matrix; the recurrence must hold by induction on n",
  ["src/matrix_tools/matrix_batch_tridiag.hpp:MatrixBatchTridiag::solve,check_stability"])
p("COO to CSR conversion represents the same matrix",
  "convert_coo_to_csr produces row pointers, column indices and values that represent, for every matrix of the batch, the same matrix as the COO triplets given.",
  "every number of rows, every list of triplets in any order, every batch index",
  "tests only pass row-sorted triplets; the permutation must be applied to every batch entry",
  ["src/matrix_tools/matrix_batch_csr.hpp:convert_coo_to_csr"])
p("Explicit time steppers attain their nominal order",
  "On y' = lambda*y one update of Euler/RK2/RK3/RK4 multiplies y by the Taylor polynomial of exp(lambda dt) of degree 1/2/3/4; on y' = f(t)-like affine problems they satisfy the consistency relations; with dt = 0 they leave the field unchanged.",
  "every dt, every lambda, every initial value, every linear derivative operator on every finite index set",
  "convergence tests estimate an order numerically on one ODE",
  ["src/timestepper/euler.hpp","src/timestepper/rk2.hpp","src/timestepper/rk3.hpp","src/timestepper/rk4.hpp"])
p("Time steppers act component-wise consistently",
  "Applying a time stepper to a multi-component field whose derivative acts component-wise gives the same result as applying it to each component, and for a linear derivative the update is a linear map.",
  "every dt, every index set, every derivative operator",
  "would need all derivative operators",
  ["src/timestepper/rk2.hpp","src/timestepper/rk4.hpp","src/timestepper/itimestepper.hpp"])
p("Crank-Nicolson fixed-point loop is bounded and its exit is meaningful",
  "CrankNicolson::update performs at least one and at most max_counter iterations for any derivative and norm behaviour; if it stops before the limit the last two iterates are within the tolerance; when the iteration has reached a fixed point the returned y satisfies y = y0 + dt/2 (f(y0)+f(y)).",
  "every derivative function, every tolerance, every iteration limit, every initial field",
  "termination for every derivative function cannot be sampled",
  ["src/timestepper/crank_nicolson.hpp:CrankNicolson::update,have_converged"])
p("MPI layout partitions the global index range",
  "For any global shape whose distributed size is divisible by the communicator size, the local index ranges of all ranks are pairwise disjoint, cover the global range, have equal size, and the distribution never throws; the non-distributed dimensions are complete on each rank.",
  "every number of dimensions, every extents, every communicator size",
  "CI runs 1-4 ranks on one shape",
  ["src/mpi_parallelisation/mpilayout.hpp:MPILayout::distribute_idx_range,internal_distribute_idx_range"])
p("MPI all-to-all transpose moves every element to its place",
  "After the transpose from the start layout to the end layout, the element at every global index is held by the rank that owns the index in the end layout, at the local position of that index; transposing back restores the original data.",
  "every communicator size P, every extents divisible by P, every contents",
  "index arithmetic of pack / alltoall / unpack can be right for square cases only",
  ["src/mpi_parallelisation/mpitransposealltoall.hpp:operator(),transpose_to,call_all_to_all"])
p("Trapezoid quadrature is exact on affine functions",
  "The trapezoid coefficients integrate exactly every function affine between consecutive points, the coefficients are non-negative and sum to the length of the interval, in the non-periodic and periodic case.",
  "every strictly increasing non-uniform mesh, every affine function",
  "tests use uniform meshes and convergence rates",
  ["src/quadrature/trapezoid_quadrature.hpp:trapezoid_quadrature_coefficients_1d"])
p("Simpson quadrature is exact on quadratics on non-uniform meshes",
  "The Simpson coefficients integrate exactly every polynomial of degree at most 2 on any non-uniform mesh with an even number of cells; the mixed Simpson-trapezoid rule handles the remaining cell so that the affine exactness holds for any number of points; wrong parity raises an error and not a wrong result.",
  "every strictly increasing mesh, every quadratic",
  "non-uniform Simpson weights have three different formulas, only sampled",
  ["src/quadrature/simpson_quadrature.hpp","src/quadrature/simpson_quadrature.hpp:simpson_trapezoid_quadrature_coefficients_1d"])
p("Quadrature operator is a linear, tensor-product, batch-independent functional",
  "Quadrature applied to f returns the sum of coefficient times value over the whole index range, is linear, the tensor-product coefficients integrate a product of 1-D functions to the product of the 1-D integrals, and the batched version gives for each batch index the integral of that slice.",
  "every dimension, every extents, every field",
  "batched index decoding uses div/mod arithmetic on arbitrary extents",
  ["src/quadrature/quadrature.hpp:Quadrature::operator()","src/quadrature/quadrature_coeffs_nd.hpp"])
p("Central finite differences are exact on quadratics",
  "The partial-derivative operator returns the exact derivative of every quadratic polynomial at every node, including the two boundary nodes, on any non-uniform mesh; in the periodic case interior formula wraps consistently.",
  "every strictly increasing mesh, every quadratic, every node",
  "boundary coefficient formulas hold by algebra for all spacings",
  ["src/math_tools/central_fdm_partial_derivatives.hpp"])
p("Periodic coordinate restriction lands in the domain",
  "ddcHelper::restrict_to_idx_range returns for any coordinate an equivalent coordinate (equal modulo the period) in [xmin, xmax), leaves in-range coordinates unchanged and is idempotent.",
  "every real coordinate, every domain with positive length",
  "an infinite set of coordinates, including negative multiples of the period",
  ["src/utils/ddc_helper.hpp:restrict_to_idx_range,total_interval_length"])
p("Tensor element numbering is a bijection",
  "Enumerating the elements of a tensor by flat number and computing the flat storage position from the per-dimension indices are mutually inverse for every tensor order and every dimension sizes.",
  "every rank, every list of extents, every element",
  "template instantiations are infinite",
  ["src/data_types/tensor_index_tools.hpp:TensorIndexElement::index,GetNthTensorIndexElement"])
p("Index-notation tensor products are Einstein summations",
  "tensor_mul of tensors labelled with index characters returns the tensor whose elements are the sums over every repeated index of the products of the elements, the free indices keeping their order of appearance.",
  "every number of tensors, every labelling in which each character appears at most twice, every dimension size, every values",
  "labellings are compile-time: only the tested ones are ever instantiated",
  ["src/data_types/indexed_tensor.hpp:tensor_mul","src/data_types/tensor_index_tools.hpp:GetUniqueIndices,GetNonRepeatedIndices,ExtractSubTensorElement"])
p("Permutation parity and Levi-Civita tensors",
  "The permutation parity used for the Levi-Civita tensors is +1/-1 on even/odd permutations, 0 when an index repeats, changes sign under any transposition; the Levi-Civita product identities (determinant) hold.",
  "every sequence of distinct tags and every permutation",
  "factorially many index tuples",
  ["src/utils/type_seq_tools.hpp:GetPermutationParity","src/data_types/static_tensors.hpp"])
p("Lagrange basis reproduces polynomials",
  "The Lagrange bases (uniform and non-uniform) sum to one, equal the Kronecker delta at the nodes, and interpolating the node values of a polynomial of degree at most D returns the polynomial at every point, including exactly at the nodes.",
  "every degree, every set of distinct nodes, every polynomial, every evaluation point",
  "infinite polynomials and points",
  ["src/interpolation/lagrange_basis_uniform.hpp","src/interpolation/lagrange_basis_non_uniform.hpp"])
p("Lagrange stencil selection stays inside the domain",
  "The nearest-knot search terminates, returns the cell that contains the coordinate, and the stencil selected for any coordinate in the domain consists of degree+1 consecutive knots of the domain.",
  "every knot list, every degree, every coordinate",
  "boundary shifting of stencil depends on index arithmetic at both ends",
  ["src/interpolation/lagrange_evaluator.hpp:find_stencil,getclosest"])
p("Circular mapping is consistent",
  "The circular (polar) mapping's Jacobian matrix is the matrix of partial derivatives of the mapping, its jacobian() is its determinant, its inverse Jacobian matrix is its two-sided inverse when r<>0, component accessors agree with the matrices, and the inverse mapping is a right inverse of the mapping away from the axis.",
  "every logical coordinate (r, theta) with r > 0, every axis position",
  "continuous domain",
  ["src/coord_transformations/circular_to_cartesian.hpp","src/coord_transformations/cartesian_to_circular.hpp"])
p("Czarny mapping is consistent",
  "Same for the Czarny mapping: Jacobian matrix equals the partial derivatives, jacobian() equals the determinant, inverse Jacobian matrix is the inverse where the determinant does not vanish, and the Cartesian-to-Czarny mapping inverts it.",
  "every (r, theta) with 0 < r <= 1, every admissible epsilon, e",
  "long rational-trigonometric formulas over a continuous domain",
  ["src/coord_transformations/czarny_to_cartesian.hpp","src/coord_transformations/cartesian_to_czarny.hpp"])
p("Cylindrical and toroidal mappings are consistent",
  "The cylindrical-to-Cartesian and toroidal-to-cylindrical mappings satisfy the same relations (matrix of partial derivatives, determinant, inverse).",
  "every coordinate off the axis",
  "continuous domain",
  ["src/coord_transformations/cylindrical_to_cartesian.hpp","src/coord_transformations/toroidal_to_cylindrical.hpp"])
p("Barycentric mappings are mutually inverse",
  "Cartesian to barycentric gives three coordinates summing to one, barycentric to Cartesian of the result returns the point, corners map to unit barycentric coordinates.",
  "every non-degenerate triangle and every point",
  "continuous domain",
  ["src/coord_transformations/cartesian_to_barycentric.hpp","src/coord_transformations/barycentric_to_cartesian.hpp"])
p("Metric tensors and vector-space changes are consistent",
  "metric(x) is the symmetric matrix J^T J, inverse(x) is its inverse when the Jacobian is invertible, and transforming a vector between spaces then back with the inverse mapping is the identity.",
  "every mapping with invertible Jacobian, every vector",
  "quantifies over all mappings",
  ["src/coord_transformations/metric_tensor_evaluator.hpp","src/coord_transformations/vector_mapper.hpp"])
p("Constant Krook source is an exact relaxation",
  "The constant Krook source moves f toward the target with the exact exponential: the result is a convex combination of f and the target, fixed on the target, composing two steps dt1, dt2 equals one step dt1+dt2, and f is untouched where the mask vanishes.",
  "every dt>=0, amplitude>=0, mask in [0,1], every f",
  "continuous data",
  ["src/geometryXVx/rhs/krook_source_constant.cpp"])
p("Adaptive Krook source conserves charge locally",
  "At every spatial position the adaptive Krook source leaves the total charge density (ion minus electron density) unchanged by an update.",
  "every distribution function, dt, mask",
  "tests check charge conservation with a tolerance on one neutral state",
  ["src/geometryXVx/rhs/krook_source_adaptive.cpp:get_amplitudes,get_derivative,operator()"])
p("Masks are genuine masks",
  "mask_tanh yields values in [0,1], the Normal and Inverted masks sum to one, the normalised mask has unit integral, and illegal extents or stiffnesses are rejected.",
  "every domain length, extent, stiffness, position",
  "continuous data",
  ["src/geometryXVx/rhs/mask_tanh.cpp"])
p("Inter-species collisions conserve momentum and energy",
  "The momentum and energy exchange terms computed for the two species cancel in the total momentum and total energy balance.",
  "every density, mean velocity, temperature, masses and charges",
  "continuous data",
  ["src/geometryXVx/rhs/collisions_inter.cpp","src/geometryXVx/rhs/collisions_utils.cpp:compute_momentum_energy_exchange"])
p("Charge density includes the adiabatic species",
  "The charge density equals the sum over the kinetic species of charge times velocity integral, plus the charge of the adiabatic species when one is present.",
  "every species list with or without an adiabatic species, every distribution",
  "tests use configurations in which every species is kinetic",
  ["src/geometryXVx/poisson/chargedensitycalculator.cpp"])
p("Species initialisation and species look-ups",
  "init_all_species numbers kinetic species first, then fluid, then at most one adiabatic species; ielec is a species of charge -1 whenever one exists, an error is raised otherwise; looking up charge and mass of any species in the range is in bounds.",
  "every input file contents",
  "combinations of species kinds",
  ["src/speciesinfo/species_init.cpp","src/speciesinfo/species_info.hpp"])
p("Edge coordinate and index transformations between patches",
  "The transformation of coordinates between the two edges of an interface is an affine bijection mapping extremities to matching extremities according to the orientation; the transformation back is its inverse; the index transformation returns the index of the equivalent coordinate exactly when one exists.",
  "every pair of edges, orientation, number of cells",
  "all size ratios",
  ["src/multipatch/connectivity/edge_transformation.hpp"])
p("Multipatch connectivity queries are sound and complete",
  "For any list of interfaces, the interfaces found for a patch are exactly those with an edge on the patch, the interface of an edge is unique, and the grids collected along a direction are exactly those linked by a chain of interfaces, the collection terminating on periodic chains.",
  "every list of interfaces/patches",
  "type-level lists: only the tested geometries are instantiated",
  ["src/multipatch/connectivity/connectivity_details.hpp","src/multipatch/connectivity/connectivity.hpp"])
p("Derivative fields store values and derivatives without overlap",
  "Each combination (set of derivatives, derivative order, physical index) accepted by a DerivField maps to exactly one memory cell, distinct combinations to distinct cells, always in bounds.",
  "every number of dimensions, derivative orders and extents",
  "combinatorial template space",
  ["src/data_types/derivative_field_common.hpp"])
p("Split solvers compose as the symmetric Strang splitting",
  "The split Vlasov solver and the split right-hand-side solver apply half, full, half steps in symmetric order, so the composed step is time reversible when the sub-flows are, and reduces to the sum of sub-flows when they commute.",
  "every number of sub-operators, dt, every state type",
  "quantifies over sub-operators",
  ["src/geometryXVx/boltzmann/splitvlasovsolver.cpp","src/geometryXVx/boltzmann/splitrighthandsidesolver.cpp"])
p("Small determinant and inverse formulas",
  "determinant and inverse of 2x2 and 3x3 tensors satisfy M M^-1 = M^-1 M = I when det(M) <> 0, det is multiplicative.",
  "every real matrix",
  "continuous data",
  ["src/math_tools/math_tools.hpp:determinant,inverse","src/coord_transformations/inverse_jacobian_matrix.hpp"])
p("Integer power helpers",
  "ipow(a,n) equals a^n, factorial(n) equals n!, neg_1_pow(n) equals (-1)^n, modulo(x,y) returns the representative in [0,y).",
  "every argument the parameter type allows",
  "infinite arguments, negative ones in particular",
  ["src/math_tools/math_tools.hpp"])
p("Batched ELL matrices are faithful element stores",
  "For a batch of sparse matrices in ELL format, after set_ell_element(b,line,k,x) with b, line, k in range get_ell_element(b,line,k) returns x and every other element is unchanged, no access leaves the values buffer, an out-of-range k is rejected, the view given by get_batch_ell addresses the same elements, and norm(b) is the largest row sum of absolute values of matrix b only.",
  "every batch size, matrix size, number of non-zeros per row, element",
  "all sizes and all elements",
  ["src/matrix_tools/matrix_batch_ell.hpp:get_ell_element,set_ell_element,get_batch_ell,norm"])
p("Preparing a batched CSR solver does not change the matrices",
  "setup_solver may sort the column indices of each row, but every matrix of the batch still represents the same linear map afterwards.",
  "every batch size, sparsity pattern, set of values",
  "all sparsity patterns; tests use patterns already sorted",
  ["src/matrix_tools/matrix_batch_csr.hpp:setup_solver"])
p("Gauss-Legendre rules integrate polynomials of degree 2N-1",
  "The tabulated Gauss-Legendre points and weights for N = 1..10 integrate polynomials of degree at most 2N-1 over [-1,1] up to the printed precision of the table, and the coefficients and points built for a mesh integrate such polynomials over the whole mesh with the same relative accuracy.",
  "every instantiated N, every strictly increasing mesh, every polynomial of degree at most 2N-1",
  "A test integrates a few polynomials on a few meshes; the claim is for all polynomials and meshes, and a wrong digit in the table can hide below a test tolerance.",
  ["src/quadrature/gauss_legendre_integration.hpp", "src/quadrature/gauss_legendre_integration.cpp"])
p("Spline coefficient cache returns the coefficients of the requested field",
  "SplineBuilder2DCache::compute_coeffs<Dim>(field) returns, after any history of calls, the spline coefficients of the field of the most recent call made with the dimension of the first call; with the documented usage (both dimensions called with the same field at each iteration) every call returns the coefficients of the field passed to it.",
  "every history of calls, every builder",
  "unbounded call histories; the interplay of the two flags depends on the order",
  ["src/math_tools/spline_builder_2d_cache.hpp:SplineBuilder2DCache","src/math_tools/spline_2d_partial_derivative.hpp"])
p("Assigning tensors of different sizes",
  "assign_elements copies, between two tensors of the same rank where the index sets of one are included in those of the other, exactly the elements with the same tags, whatever the order of the tags, and leaves every other element of the destination unchanged.",
  "every pair of lists of index sets, every values",
  "combinations of ranks, sizes and tag orders are unbounded",
  ["src/data_types/tensor_common.hpp:assign_elements"])
p("Lagrange evaluation outside the domain",
  "Evaluating a Lagrange interpolant built by the identity builder is periodic with the length of the domain when the dimension is periodic; otherwise, below (above) the domain it returns 0 with the null rule and the first (last) interpolated value with the constant rule.",
  "every basis, every values, every coordinate, every number of periods",
  "coordinates are unbounded; a test evaluates at a handful of points within a couple of periods",
  ["src/interpolation/lagrange_evaluator.hpp:eval","src/interpolation/identity_interpolation_builder.hpp","src/interpolation/constant_identity_interpolation_extrapolation_rule.hpp"])
p("Combined (pseudo-Cartesian) mappings are consistent",
  "For a combination of two mappings the Jacobian matrix is the product of the matrices of the two mappings and is the matrix of partial derivatives of the composed map, jacobian() is its determinant, and the inverse Jacobian matrix is its two-sided inverse; for the pseudo-Cartesian domains of the circular and Czarny mappings the inverse Jacobian is exact on the axis and from epsilon on, and linear in r between.",
  "every pair of mappings with invertible Jacobians, every logical coordinate, every admissible Czarny parameters, every epsilon",
  "a continuum of coordinates around a removable singularity",
  ["src/coord_transformations/combined_mapping.hpp:CombinedMapping","src/coord_transformations/inv_jacobian_o_point.hpp:InvJacobianOPoint"])
p("Linear coordinate changes and their products",
  "A linear transformation has the scaling factor as derivative, sends the reference point to the reference point and is inverted by its inverse mapping; the product of two of them has the matrix of partial derivatives as Jacobian matrix, jacobian() is its determinant, and the product of the inverses is the inverse.",
  "every scaling factor and reference points, every order of the dimensions in the coordinate types",
  "orders of the template arguments are combinatorial; the tests use one",
  ["src/coord_transformations/linear_coord_transform.hpp","src/coord_transformations/orthogonal_coord_transforms.hpp"])
p("Predictor-corrector time loop",
  "For every number of steps the time loop returns the state given by the predictor-corrector recurrence (half-step prediction with the field of the current state, full step from the current state with the field of the predicted state) and outputs one snapshot per step with its time and the potential of that very state; stopping and restarting gives the same states and snapshots as one run; the result does not depend on the initial contents of the field buffers.",
  "every number of steps, split point, Boltzmann solver and quasi-neutrality solver",
  "unbounded step counts and every split point",
  ["src/geometryXVx/time_integration/predcorr.cpp"])
p("Kinetic source injects the prescribed density and energy",
  "The kinetic source adds amplitude*dt times a fixed profile: successive steps add up, every velocity moment grows by the moment of the profile, the total number of particles grows by amplitude*dt times the velocity integral of the shape because the spatial profile has unit integral; on a velocity grid exact for the Maxwellian the source carries the prescribed density, no momentum, and energy*T/2.",
  "every mesh, extent, stiffness, distribution, dt, velocity grid",
  "continuous parameters; the balance must hold for every mesh",
  ["src/geometryXVx/rhs/kinetic_source.cpp","src/geometryXVx/rhs/mask_tanh.cpp"])
p("Intra-species collision operator",
  "The intra-species collision step solves the Crank-Nicolson discretisation of d/dv(D df/dv - nu f) with the collision coefficients at the mid-points; the coefficients Vcoll and Tcoll are those for which the continuous operator conserves momentum and energy; the derivative of the diffusion coefficient used for the integrals is the derivative of the coefficient; the index arithmetic of the ghosted and staggered grids stays in bounds; on a uniform grid the number of particles changes only through the boundary.",
  "every velocity grid, distribution, dt, collisionality",
  "continuous parameters; a wrong sign or an off-by-one in the ghosted index hides below tolerances",
  ["src/geometryXVx/rhs/collisions_intra.cpp","src/geometryXVx/rhs/collisions_utils.hpp"])
p("Fluid moments and initial conditions",
  "The overloads computing the moments of one distribution and of a field, and the moments computed inside the collision operators, are the same numbers; the temperature is non-negative, velocity and temperature are Galilean covariant and do not depend on the normalisation of f; equilibria are positive and symmetric, the bump-on-tail equilibrium is the sum of two Maxwellians, the perturbation is periodic, bounded by its amplitude and the perturbed distribution never falls below the floor.",
  "every distribution, velocity grid, quadrature, perturbation mode and amplitude",
  "continuous parameters and arbitrary grids",
  ["src/geometryXVx/utils/fluid_moments.cpp","src/geometryXVx/initialisation"])
p("Conforming index slices of an interface",
  "The two index slices computed for an interface list exactly the pairs of indices of the two edges that are the same point of the interface, in order; when the common points are not evenly spaced the constructor throws.",
  "every pair of edges (uniform or not, periodic or not, same or opposite orientation), any number of cells",
  "all size ratios, orientations and periodicities; the index arithmetic mixes signed and unsigned integers",
  ["src/multipatch/connectivity/matching_idx_slice.hpp"])
p("Patch location and spline evaluation on an onion geometry",
  "For patches that are successive rings in the radial direction, the patch locator ends for every point and answers the index of the ring which contains it, or tells apart the points beyond the outer radius and below the inner radius; its constructor accepts exactly the lists of patches whose radii follow each other within the tolerance. The multipatch spline evaluator returns, inside the domain, the value (or the derivative) of the spline of that ring at the radius and at the angle brought back to one period; outside, it aborts for derivatives, returns 0 with the null rule, and the value at the nearest boundary with the constant rule.",
  "every number of patches, radii, coefficients, every point of the plane (inside, on interfaces, outside), every derivative order",
  "the binary search must be right for every number of patches and every point, including points on the interfaces",
  ["src/multipatch/connectivity/onion_patch_locator.hpp","src/multipatch/spline/multipatch_spline_evaluator_2d.hpp","src/multipatch/spline/constant_extrapolation_rules_onion.hpp","src/multipatch/spline/null_extrapolation_rules.hpp","src/multipatch/utils/multipatch_math_tools.hpp"])
p("Spectral Poisson solver",
  "For a density made of waves resolved by the periodic grid (every array is), the FFT Poisson solver returns at every grid point the periodic zero-mean solution of -Laplacian(phi) = rho - mean(rho), and E = -grad(phi) in the directions where no wave is at the Nyquist frequency; batches are independent, other arrays are left alone, the density may be overwritten by the result, and the result does not depend on the contents of the work buffers or on whether the inverse transform destroys its input.",
  "any number of dimensions, any sizes (even or odd) and steps, any density, any number of batches, any aliasing of rho with an output",
  "the tests use one or two cosines on one grid; the treatment of the zero and Nyquist frequencies, of the half spectrum and of the buffers must be right for all",
  ["src/pde_solvers/fft_poisson_solver.hpp"])
p("One-dimensional semi-Lagrangian advections",
  "An advection step (spatial, velocity, or along a general one-dimensional field) replaces the value at each point by the interpolant of that point's own line at the foot of its characteristic and changes nothing else: it does not depend on the order in which the lines are visited nor on the contents of the preallocated buffers, and no species or batch sees the values of another. With a field constant along the line every time integration method gives the same displacement; a zero step changes nothing; a function the interpolation represents exactly is transported exactly, and two steps are one step of the summed duration.",
  "every distribution, grid, field, time step, number of species and batches, visiting order, buffer contents, interpolation method",
  "the loop is executed in parallel with buffers shared between lines; the values and displacements are continuous",
  ["src/advection/bsl_advection_x.hpp","src/advection/bsl_advection_vx.hpp","src/advection/bsl_advection_1d.hpp","src/advection/nulladvectionvx.hpp"])
p("Mass conservation and exact shifts of the periodic Lagrange advections",
  "On a periodic uniform grid with Lagrange interpolation of any degree, an advection with constant speed conserves the sum of the values of each line for every displacement; a displacement by a whole number of cells is the corresponding cyclic permutation of the values; no displacement makes the interpolation fail or access memory out of bounds.",
  "every degree, number of cells, values, displacement (any number of periods, either sign), time step",
  "continuous displacements and arbitrary data",
  ["src/advection/bsl_advection_x.hpp","src/advection/bsl_advection_vx.hpp","src/advection/bsl_advection_1d.hpp","src/interpolation/lagrange_evaluator.hpp","src/interpolation/lagrange_basis_uniform.hpp"])
p("Feet of the characteristics on a poloidal plane",
  "The polar foot finder ends without failure for every time stepper, advection field and time step. With an explicit method the foot of a point is, in logical coordinates, the result of one textbook Runge-Kutta step of the backward characteristic equation in the plane where the advection takes place (physical or pseudo-Cartesian), hence accurate to the order of the method; with Crank-Nicolson it is an iterate of the implicit trapezoidal rule within the announced number of iterations. The feet have a non-negative radius and an angle in the angular domain, all the points of the O-point share one foot, and the velocity used is the advection field expressed in the basis of that plane, at the O-point too.",
  "every field, time step (either sign), mapping (circular, Czarny), grid, time stepper, visiting order, starting point",
  "continuous fields, points and time steps; order of accuracy is an asymptotic statement; parallel execution",
  ["src/advection/spline_polar_foot_finder.hpp","src/utils/vector_mapper.hpp","src/timestepper/rk4.hpp","src/timestepper/crank_nicolson.hpp"])
p("Semi-Lagrangian advection on a poloidal plane",
  "The polar advection replaces the value at each point by the interpolant of its own batch at the foot of its characteristic. The result does not depend on the visiting order or on uninitialised memory; the function stays single-valued at the O-point; a field constant in the plane transports exactly every function the interpolation represents; a zero step leaves the values. Given curvilinear components, the result is that of the Cartesian field J a, with the given vector (or the average of the first ring) at the O-point, whose row in the input is never used; missing rows stop the operator by an assertion.",
  "every function, field, time step, grid, batch, visiting order, memory contents",
  "continuous data, parallel execution and uninitialised memory",
  ["src/advection/bsl_advection_polar.hpp","src/advection/spline_polar_foot_finder.hpp"])
p("The finite element Poisson solver returns the Galerkin solution",
  "After constructing the 1-D finite element Poisson solver on a B-spline space and calling it on any charge density, the returned potential is the function of the space that satisfies the discrete weak form of -phi''=rho against every test function: for a periodic space with rho replaced by rho minus its mean and with phi of zero integral, for a non-periodic space with phi zero at both ends; the returned electric field is minus the derivative of that same function. No call fails or leaves its arrays.",
  "for every degree, number of cells, quadrature with positive weights that controls the derivative, density, number of batches, grid of evaluation points and order of the atomic additions",
  "continuous data, arbitrary spaces, and a quantification over all test functions",
  ["src/pde_solvers/fem_1d_poisson_solver.hpp","src/matrix_tools/matrix.cpp","src/matrix_tools/matrix_corner_block.cpp"])
p("The finite element Poisson solver is deterministic, linear, exact on its space and optimal",
  "The potential and field of one batch depend only on that batch's density: not on the other batches, the order of the parallel additions or the LAPACK used; they depend linearly on the density; if the exact solution belongs to the spline space it is returned exactly; otherwise no admissible function of the space has a derivative closer to the exact one in the quadrature norm.",
  "for every space, quadrature, pair of densities, schedules, numbers of batches, exact solution",
  "all schedules and all competitors in an infinite set",
  ["src/pde_solvers/fem_1d_poisson_solver.hpp"])
p("Norms, gradients and curls do not depend on the coordinates",
  "At every point where the mapping is regular, the norm of a vector (co- or contravariant), the contravariant gradient of a function and the curl of a vector field computed from logical partial derivatives are the Euclidean norm, the Cartesian gradient and the Cartesian curl, also in left-handed coordinates; the curl of a gradient is exactly zero; field versions do this at every point of the range only.",
  "for every mapping, point, differentiable function and field, index range and visiting order",
  "infinitely many mappings and functions; the identity rests on symmetric second derivatives and on the Jacobian determinant",
  ["src/math_tools/gradient.hpp","src/math_tools/curl.hpp","src/math_tools/math_tools.hpp:norm"])
p("Lie-Poisson bracket",
  "The bracket of two functions in a magnetic field is b.(grad f x grad g) with b the unit vector of B, whatever the coordinate system; it is antisymmetric, bilinear (Leibniz rule) and vanishes for a function whose gradient is along B; with a rank 2 argument it is the vector of the brackets of the rows.",
  "for every mapping with a regular Jacobian, point, pair of functions and non-zero B",
  "algebraic identities over all real inputs",
  ["src/math_tools/lie_poisson_bracket.hpp"])
p("Gradients assembled from partial derivative operators",
  "A gradient creator writes in each covariant component the derivative computed by the operator of that dimension from the function it is called with, and nothing else; with spline operators that share a coefficient cache this holds for every call of any sequence of calls of that creator.",
  "for every list of operators, function, index range and history of calls",
  "the cache makes the result depend on the whole history of calls",
  ["src/math_tools/gradient_creator.hpp","src/math_tools/constant_partial_derivatives.hpp","src/math_tools/spline_1d_partial_derivative.hpp","src/math_tools/spline_2d_partial_derivative.hpp","src/math_tools/spline_builder_2d_cache.hpp"])
p("Gyroaverage",
  "The gyroaverage operator stores at every point of the (r, theta) grid the mean of the reconstructed input field over the given number of equally spaced points of the circle of the local Larmor radius about the physical position of the point; quadratic fields get a + rho^2/4 times the Laplacian, affine fields and zero radii are left unchanged, the bounds of the field are kept, the operator is linear and may be called in place.",
  "all grids, Larmor radii, numbers of gyro points, batch sizes, interpolators, orders of the parallel loops",
  "A test samples a few radii on one grid; the statement is for every radius, number of points and reconstruction",
  ["src/gyroaverage/gyroaverage_operator.hpp: GyroAverageOperator::operator()", "src/mapping/circular_to_cartesian.hpp", "src/mapping/cartesian_to_circular.hpp"])
p("Derivatives of Lagrange interpolation",
  "The derivatives returned by the Lagrange bases and the 1D Lagrange evaluator are the derivatives of the interpolating polynomial of the stencil at the evaluated coordinate, between and at the nodes, whatever the content of the work arrays; derivatives of polynomials up to the degree are reproduced and an order above the degree is refused.",
  "all initialised uniform and non-uniform bases, periodic or not, coefficients, coordinates of the domain, orders up to min(degree, 20)",
  "The enumeration of the combinations and the recurrence at the nodes are checked by tests for two degrees and low orders only",
  ["src/interpolation/lagrange_basis_uniform.hpp: eval_basis_and_n_derivs", "src/interpolation/lagrange_basis_non_uniform.hpp: eval_basis_and_n_derivs", "src/interpolation/lagrange_evaluator.hpp: deriv, eval_no_bc"])
p("Tensor-product Lagrange interpolation",
  "The ND Lagrange evaluator returns the tensor product of the one-dimensional interpolants with the requested partial derivatives: sums of products of polynomials are reproduced, the coefficient is returned at the grid points; outside the domain the extrapolation rules apply; the ND identity builder gives every coefficient the value of the interpolation point it stands for.",
  "all numbers of dimensions, bases, orders, coefficients and coordinates of the domain",
  "Tests use two or three dimensions with one degree; the recursion is over an arbitrary list of dimensions",
  ["src/interpolation/nd_lagrange_evaluator.hpp: NDLagrangeEvaluator", "src/interpolation/nd_identity_interpolation_builder.hpp: NDIdentityInterpolationBuilder"])
p("Interface derivative relation on non-uniform patches",
  "The coefficients returned for an interface satisfy s'(X_I) = c + a s'(X_{I+1}) + b s'(X_{I-1}) for every cubic spline s on the two patches, for any lengths and number (>= 2) of cells, any orientation of the patches and with or without extra (Greville) interpolation points in the far cells, for which the corresponding coefficient is 0; with a chosen number n of cells the neglected terms are at most 3 (1/2)^n max|s'|; break points that are not interpolation points, extra points outside of the far cell and fewer than 2 cells are refused with an error.",
  "all pairs of increasing grids, four orientations, both boundary kinds, all cubic splines",
  "Tests compare one manufactured function on a few grids of a fixed size with a tolerance; the recursion coefficients depend on every cell length",
  ["src/multipatch/interface_derivatives/single_interface_derivatives_calculator.hpp: SingleInterfaceDerivativesCalculator, set_coefficients_non_uniform_case, recursion, correction_boundary, get_function_coefficients"])
p("Interface derivative relation on uniform patches",
  "When the two patches have uniform interpolation points the explicit formula gives coefficients that satisfy the same relation for every cubic spline, for any number of cells and any steps, and the coefficients of the derivatives decay geometrically with the number of cells.",
  "all numbers of cells, steps and orientations, all cubic splines",
  "Tests use equal cell lengths on both patches; the formula has one closed form for all numbers of cells",
  ["src/multipatch/interface_derivatives/single_interface_derivatives_calculator.hpp: set_coefficients_uniform_per_patch_case, get_cell_lengths"])
p("Triangular Bernstein polynomials",
  "For every degree up to 20, triangle and point, the evaluation returns the (D+1)(D+2)/2 polynomials D!/(i!j!k!) l1^i l2^j l3^k of the barycentric coordinates in the documented order; they sum to 1 and are non-negative inside of the triangle.",
  "all degrees, triangles and points",
  "Tests evaluate one degree at random points; the multinomial coefficients are computed in 64-bit integers which wrap around silently",
  ["src/interpolation/polar_splines/bernstein.hpp: TriangularBernsteinPolynomialBasis::eval_basis"])
p("Polar B-spline indices",
  "The polar index and the 2D index are inverse to each other between the tensor-product functions (radial index from C+1, poloidal index modulo the number of poloidal functions) and the range after the singular functions; other arguments are refused; the 2D view of a coefficient field shows, at every pair of indices, the coefficient with that polar index.",
  "all continuities, sizes and indices",
  "Tests use one grid; index arithmetic must hold for all sizes",
  ["src/interpolation/polar_splines/polar_bsplines.hpp: get_polar_index, get_2d_index, get_tensor_product_subset, nbasis"])
p("Polar splines are tensor-product splines with affine inner coefficients",
  "For every mapping whose first row of control points is the pole, the constructor succeeds and each polar spline, with all its derivatives, is the tensor-product spline whose first C+1 rows of coefficients are an affine function of the control points (given by the singular coefficients at the corners of the smallest equilateral triangle around the second row). Hence constants and the coordinates of the mapping are reproduced, values stay between the smallest and the largest coefficient, and evaluation is linear in the coefficients.",
  "all degrees, knots, mappings, coefficients, points and orders of derivation; C = -1, 0, 1",
  "Tests compare a few coefficients on one mapping; the identities must hold at every point and for every mapping",
  ["src/interpolation/polar_splines/polar_bsplines.hpp: PolarBSplines::Impl constructor, eval", "src/interpolation/polar_splines/polar_spline_evaluator.hpp: eval_no_bc"])
p("Smoothness at the pole",
  "At the pole a polar spline with C = 1 has one value (the mean of its three singular coefficients), derivative 0 along theta, and agrees up to O(r^2) with an affine function of (x, y), so that it is differentiable there as a function of the physical coordinates when the mapping is regular; with C = 0 it is continuous.",
  "all mappings, coefficients and angles",
  "Smoothness is a limit statement about infinitely many points around the pole",
  ["src/interpolation/polar_splines/polar_bsplines.hpp", "src/interpolation/polar_splines/polar_spline_evaluator.hpp"])
p("Evaluation of polar splines at any coordinate",
  "Behind the outer radius the extrapolation rule is applied; inside, evaluation is defined for every real poloidal angle and 2 pi-periodic, including across the two ends of the domain; every read stays inside of the coefficient field.",
  "all coordinates, coefficients, degrees and knots",
  "Tests evaluate inside of the domain; periodicity at the end points depends on the evaluation of the last cell",
  ["src/interpolation/polar_splines/polar_spline_evaluator.hpp: eval, eval_no_bc, deriv"])
p("Integrals of polar B-splines",
  "The integrals computed for the polar basis are such that, for all coefficients, the sum of the coefficients times the integrals is the integral over (r, theta) of the polar spline.",
  "all degrees, knots, mappings and coefficients",
  "Tests integrate one function with a tolerance",
  ["src/interpolation/polar_splines/polar_bsplines.hpp: PolarSplines::integrals"])
p("Discrete poloidal mapping",
  "The Jacobian matrix of the discrete mapping is the matrix of the partial derivatives of the mapping, its components and its determinant agree with it; at the pole all angles give the same point, the Jacobian is singular and the first-order matrix is the limit of the Jacobian matrix with the theta column divided by r.",
  "all spline mappings with a degenerate first row and all points",
  "Tests compare with an analytical mapping with a tolerance; the pole is a limit",
  ["src/coord_transformations/discrete_poloidal_cs_spline_mapping.hpp"])
p("Sparsity pattern of the polar Poisson-like solver",
  "The constructor of the polar spline finite element solver builds compressed rows in which column j appears in row i, exactly once and in increasing order, if and only if the basis functions i and j live on a common cell; the result does not depend on the order of the parallel iterations.",
  "all degrees (the same in r and theta), continuities, numbers of cells (at least 2 degree + 2 poloidal, at least degree + continuity + 2 radial) and all orders of the parallel loops",
  "Tests use one or two grids and never look at the pattern; a missing element only shows as a small error",
  ["src/pde_solvers/polar_spline_fem_poisson_like_assembler.hpp", "PolarSplineFEMPoissonLikeAssembler::init_nnz_per_line", "PolarSplineFEMPoissonLikeAssembler::setup_sparse_matrix"])
p("Polar Poisson-like matrix is the weak form",
  "After any history of calls, y^T A x is the quadrature of alpha grad u . grad v + beta u v for the equation given last, where u and v are the polar splines with the coefficients x and y; the matrix is symmetric and no result depends on the order of the parallel iterations; constructor and update_coefficients succeed.",
  "all degrees, meshes, spline mappings, coefficients, histories of calls and orders of the parallel loops",
  "Each matrix element depends on its location relative to the pole, to the boundary and to the periodic seam; tests only measure a convergence order",
  ["src/pde_solvers/polar_spline_fem_poisson_like_assembler.hpp", "PolarSplineFEMPoissonLikeAssembler::update_coefficients", "weak_integral_element"])
p("Solution of the polar Poisson-like equation",
  "With a linear solver whose residual is at most eps the returned polar spline satisfies the discrete weak form of the equation up to eps times the coefficients of the test function, vanishes on the boundary, and the values on a grid are those of this spline.",
  "all right-hand sides, histories, meshes, and all linear solvers with this accuracy",
  "Tests use smooth manufactured solutions",
  ["src/pde_solvers/polar_spline_fem_poisson_like_solver.hpp", "PolarSplineFEMPoissonLikeSolver::operator()"])
p("Polar Poisson-like problem is well posed",
  "If the weights are positive, alpha and beta are not negative and one of them is positive then the matrix is positive definite and the discrete problem has exactly one solution, for every right-hand side.",
  "all meshes, mappings with a non-degenerate first ring, coefficients and right-hand sides",
  "Positive definiteness is a statement about every vector",
  ["src/pde_solvers/polar_spline_fem_poisson_like_assembler.hpp", "src/pde_solvers/polar_spline_fem_poisson_like_solver.hpp"])
p("Limits of the polar Poisson-like solver",
  "What happens outside of the sizes of C77: with too few poloidal cells column indices are not written or written outside of the array, with too few radial cells or different degrees the solver fails, and a second call of update_coefficients keeps the preconditioner of the first.",
  "the sizes outside of the hypotheses of C77; all histories",
  "Tests only use sizes which work and call update_coefficients once",
  ["src/pde_solvers/polar_spline_fem_poisson_like_assembler.hpp", "src/pde_solvers/polar_spline_fem_poisson_like_solver.hpp"])
p("The advection field along (x, y) is E x e_z of the true Cartesian gradient of the potential",
  "AdvectionFieldFinder::operator() on a Cartesian vector field returns, at every grid point outside the disc of radius epsilon where the mapping is invertible, A = (-dy phi, dx phi) for the one Cartesian gradient compatible with the evaluator's two derivatives through the chain rule; if the evaluator returns the derivatives of F o mapping for a differentiable function F of the plane this is exactly the rotated gradient of F. For r <= epsilon the result is the linear interpolation between the gradient found from the two directions pi/4 and -pi/4+2pi at the O-point and the gradient at (epsilon, theta); nothing is read at the singular Jacobian. The two directions are independent on every circular domain and every Czarny domain with inverse aspect ratio^2 < 3, and for a C1 polar spline with any coefficients the O-point value is (-c, b), the rotated slope of its tangent plane.",
  "all mappings, potentials, epsilons, grids, coefficient vectors, and points of the grid",
  "tests compare with a tolerance on a few meshes and one epsilon; they cannot show exactness for every differentiable potential, nor that the pole value is the tangent plane of every C1 polar spline",
  ["src/geometryRTheta/advection_field/advection_field_rtheta.hpp: AdvectionFieldFinder::operator(), compute_advection_field_XY"])
p("The contravariant advection field has phi as stream function and is the same vector as the Cartesian one",
  "AdvectionFieldFinder::operator() on a field along (r, theta) returns A with jac A^r = -d_theta phi and jac A^theta = d_r phi at every grid point where the mapping is invertible (all metric factors of the implementation cancel), so the field is tangent to the level lines of phi and divergence free in the curvilinear metric; multiplied by the Jacobian matrix it is the vector the Cartesian overload returns, and the separately returned Cartesian value for the O-point is the value the Cartesian overload returns at r = 0.",
  "all mappings, potentials, grids and points",
  "tests compare numbers at mesh points with a tolerance; incompressibility and the agreement of both overloads are identities over all potentials and mappings",
  ["src/geometryRTheta/advection_field/advection_field_rtheta.hpp: AdvectionFieldFinder::operator(), compute_advection_field_RTheta"])
p("The advection direction documented by the (r, theta) time solvers",
  "The time solvers' documentation states the transport equation with (A_x, A_y) = (-E_y, E_x); the field finder they use would have to return this vector at every point.",
  "all mappings, potentials and points",
  "a test with a symmetric initial condition does not see the direction of rotation",
  ["src/geometryRTheta/time_solver/README.md:16", "src/geometryRTheta/time_solver/bsl_predcorr.hpp:31-33", "src/geometryRTheta/advection_field/advection_field_rtheta.hpp:331-335"])
p("BslPredCorrRTheta integrates the guiding-centre equations with the midpoint rule",
  "A call with n steps returns the density after n midpoint steps (predict with A(rho) for dt/2, advect rho with the field of the prediction for dt), independently of the contents of all work buffers and of whether host and device share memory; it publishes n+1 events with the density and potential of the corresponding step; continuing for k steps from the result of n steps is the same as n+k steps; and the event of step k carries the time k dt.",
  "all operators (builder, Poisson solver, field finder, advection), densities, time steps, numbers of steps, buffer contents, memory spaces",
  "tests run a few steps of one simulation; aliasing of mirrored buffers depends on the build and the composition property ranges over all histories",
  ["src/geometryRTheta/time_solver/bsl_predcorr.hpp: BslPredCorrRTheta::operator()", "src/timestepper/rk2.hpp: RK2::update", "src/geometryRTheta/poisson/poisson_like_rhs_function.hpp"])
p("BslExplicitPredCorrRTheta implements its documented second order scheme",
  "A call returns the density after n steps of predict-with-A^n, correct-with-mean-field, events carry the state of their time k dt (the last one steps*dt), the result does not depend on buffers or memory spaces and restarts compose; the mean field is (A^P(X^n)+A^n(X^P))/2 as documented, which gives second order accuracy.",
  "all operators, densities, time steps, numbers of steps, buffer contents, memory spaces",
  "the scheme runs and looks plausible with the wrong field; only an order study or a comparison with the documented formula for all fields shows the difference",
  ["src/geometryRTheta/time_solver/bsl_predcorr_second_order_explicit.hpp: BslExplicitPredCorrRTheta::operator()"])
p("BslImplicitPredCorrRTheta implements its scheme and publishes consistent states",
  "A call returns the density after n steps of the implicit predictor-corrector (implicit feet over dt/4 for the prediction, over dt/2 for the correction, correction with (A^P(X^n)+A^P(X^C))/2 over dt); the prediction is advected with (A^n(X^n)+A^n(X^P))/2 as the code comments; all events carry the density and potential of the same time; the result does not depend on buffers or memory spaces and restarts compose.",
  "all operators, densities, time steps, numbers of steps, buffer contents, memory spaces",
  "the stale density of the last event only appears on builds with separate memory spaces; CI runs on the host",
  ["src/geometryRTheta/time_solver/bsl_predcorr_second_order_implicit.hpp: BslImplicitPredCorrRTheta::operator()"])
p("The implicit feet iteration stops, changes only the feet, and returns the solution of the implicit equation up to the tolerance",
  "The fixed point loop performs between 1 and 50 iterations, stops at the first one where no foot moved by more than tau in the physical plane, and leaves the density, coefficients and advection field untouched; if the map contracts by L<1 with L^49 times the first displacement <= tau it always converges, and the result is within L/(1-L) tau of the exact fixed point; a returned value is always converged.",
  "all fields, feet finders, mappings, time steps and tolerances",
  "a test has one field for which the iteration converges; the error bound and the silent exit after 50 iterations need all fields",
  ["src/geometryRTheta/time_solver/bsl_predcorr_second_order_implicit.hpp: implicit_loop"])
p("The guiding-centre time solvers preserve every invariant of the advection",
  "Whatever property of the density every single advection preserves (bounds, positivity, mass, size) holds for the result and for the density of every published event of all three time solvers; with zero or negative steps the density is returned unchanged with exactly one event.",
  "all invariants, operators, densities and numbers of steps",
  "an invariant over all histories",
  ["src/geometryRTheta/time_solver/bsl_predcorr.hpp", "src/geometryRTheta/time_solver/bsl_predcorr_second_order_explicit.hpp", "src/geometryRTheta/time_solver/bsl_predcorr_second_order_implicit.hpp"])
p("The dispersion relation of the diocotron instability",
  "For walls 0 <= W1 <= R1, 0 < R1 < R2 <= W2 and a mode l >= 1, get_frequency() and get_slope() of DiocotronDensitySolution are the real and the imaginary part of the fastest growing solution of (omega/omega_D)^2 - b omega/omega_D + c = 0 (the largest one if both are real), where b and c are the implemented coefficients; without inner wall (W1 = 0) they are the documented ones. Refuted: with W1 > 0 the documented coefficients (the factor 1/(1-(W1/W2)^(2l)) multiplies one term only in the code); a ring that starts at the axis (R1 = 0), which the assertions accept, gives no finite number.",
  "all radii, charges and modes",
  "A growth rate is compared with one or two simulations; the formula has to be right for every geometry and mode",
  ["src/geometryRTheta/initialisation/diocotron_initialisation_equilibrium.hpp: DiocotronDensitySolution", "src/geometryRTheta/initialisation/diocotron_initialisation_equilibrium.cpp: dispersion_relation"])
p("The densities of the diocotron instability",
  "equilibrium() is exp(-((r - mid)/half width)^50) on the ring (between 1/e and 1, equal to 1 in the middle, symmetric about it), zero outside and independent of theta; initialisation() is equilibrium() times 1 + eps cos(l theta): it differs by at most |eps| times the equilibrium, has the period 2 pi / l, its integral over a turn is 2 pi times the equilibrium, and it is not negative when |eps| <= 1.",
  "all radii, angles, modes l != 0 and amplitudes",
  "Integrals and periodicity concern every angle and every radius",
  ["src/geometryRTheta/initialisation/diocotron_initialisation_equilibrium.cpp: initialisation, equilibrium"])
p("The equilibrium of the vortex merger",
  "VortexMergerEquilibria: find_equilibrium runs at least one and at most max(1, count_max) iterations (25 for set_equilibrium), each one solving the Poisson equation for sigma f(phi) and scaling sigma and the potential by phi_max / max|potential|, and stops after the first one in which sigma moved by at most tau at every point; the density returned is sigma f(phi), with the value of the first angle on the whole first row when the first radius is zero. The potential has the maximum |phi_max|; a uniform sigma stays uniform; for a homogeneous solver the potential solves the Poisson equation for the final sigma and the previous potential, so it is an equilibrium if the potential did not move. A division by zero happens only when the solver returns a zero potential. Refuted: a sigma which has settled exactly is an equilibrium; a returned state has settled (the limit of the iterations is silent).",
  "all Poisson solvers, profiles f, tolerances >= 0, grids and initial fields",
  "The number of iterations and the fixed point depend on the solver and the profile",
  ["src/geometryRTheta/initialisation/vortex_merger_equilibrium.hpp: VortexMergerEquilibria::find_equilibrium, set_equilibrium"])
p("The initial states of the vortex merger and of the Kelvin-Helmholtz instability",
  "set_initialisation of VortexMergerDensitySolution adds two bumps of height eps: the density differs from the equilibrium by at most 2 |eps|, exceeds it if eps > 0, does not depend on the order of the centres, is symmetric about their middle and has the documented value at a centre. KelvinHelmholtzInstabilityInitialisation has the equilibrium sin(y), differs from it by at most |eps|, and the perturbation integrates to zero over any number of wave lengths.",
  "all points, centres, widths != 0, amplitudes and modes",
  "Bounds, symmetries and integrals concern all points",
  ["src/geometryRTheta/initialisation/vortex_merger_initialisation.hpp: VortexMergerDensitySolution::set_initialisation", "src/geometryXY/initialisation/initialisation_Kelvin_Helmholtz.hpp: KelvinHelmholtzInstabilityInitialisation"])
p("The time solver of geometryXY",
  "PredCorrRK2XY: with a Poisson solver that leaves its right-hand side alone, a run of nbiter steps is nbiter midpoint steps, each advection being the Strang splitting x (dt/2), y (dt), x (dt/2) with the field (-E_y, E_x); event i carries the number i, the time i dt and the density, the potential and the electric field after step i; it succeeds whenever the operators do (nbiter < INT_MAX), n steps followed by k steps give the result of n + k steps, what both one-dimensional advections preserve is preserved, and nothing happens for nbiter <= 0. Refuted: the same for a solver that uses the right to modify its argument (saving the data then changes the density).",
  "all operators, densities, time steps and numbers of steps",
  "The number of steps is not bounded, and the operators are arbitrary",
  ["src/geometryXY/time_integration/predcorr_RK2.hpp: PredCorrRK2XY::operator()", "src/timestepper/rk2.hpp: RK2::update"])
p("Maxwellian equilibria carry the requested density, velocity and temperature",
  "Integrated over all velocities, the Maxwellian equilibrium of the XVx geometry has exactly the density, mean velocity and temperature requested, and every central moment of the normal law; truncating the velocity domain at distance w of the mean loses a non-negative amount of density that is at most n exp(-w^2/2T); the bump-on-tail equilibrium has density one, mean velocity epsilon*V and the second moment of the two populations.",
  "every density, positive temperature, mean velocity, every moment order, every truncation width",
  "tests check the moments of one Maxwellian on one truncated grid within a tolerance",
  ["src/geometryXVx/initialisation/maxwellianequilibrium.cpp: compute_maxwellian", "src/geometryXVx/initialisation/bumpontailequilibrium.cpp: compute_twomaxwellian"])
p("Two-velocity Maxwellian and its perturbed initial state",
  "The Maxwellian of the XYVxVy geometry integrates over vy to the one-dimensional Maxwellian of vx, is symmetric in the two velocities, and its mixed moments are the products of normal moments, so density, mean velocity and temperature are those requested; the initial perturbation is bounded by twice its amplitude, has the periods of the domain and zero mean; the initial distribution is at least 1e-60 everywhere and within 1e-60 of the perturbed equilibrium wherever that is non-negative.",
  "every density, positive temperature, mean velocity, pair of moment orders, mode, amplitude, domain lengths",
  "a test checks a few moments of one Maxwellian on one grid",
  ["src/geometryXYVxVy/initialisation/maxwellianequilibrium.cpp: compute_maxwellian", "src/geometryXYVxVy/initialisation/singlemodeperturbinitialisation.cpp"])
p("Maxwellian in parallel velocity and magnetic moment",
  "With the volume element 2*pi*B, the Maxwellian of the VparMu geometry has the parallel moments and the perpendicular energy of the requested density, velocity and temperature for unit mass (and m^(3/2) times those for mass m); for mass different from one neither of the usual volume elements gives the requested density (refuted).",
  "every mass, density, temperature, mean velocity, magnetic field and moment order",
  "the tests use one species of unit mass",
  ["src/geometryVparMu/initialisation/maxwellianequilibrium.cpp: compute_maxwellian", "src/geometryVparMu/initialisation/noperturbinitialisation.cpp"])
p("Sources and exchanges have the fluid moments requested, over all velocities",
  "The velocity shape of the kinetic source integrates to the density requested, to zero momentum and to the energy requested; the inter-species collision term integrates to zero particles and to exactly the exchanged momentum and heat, and with the rates computed by the code the momentum (in the code's normalisation) and energy of the two species together are conserved.",
  "every density, energy, temperature, every collision frequency, pair of masses, velocities and temperatures",
  "tests check conservation on one grid within a tolerance; the exact statement is an improper integral",
  ["src/geometryXVx/rhs/kinetic_source.cpp", "src/geometryXVx/rhs/collisions_inter.cpp", "src/geometryXVx/rhs/collisions_utils.cpp"])
p("The charge density of the distributed 2d2v code is a sum over all velocities and species",
  "Whatever the number of ranks and the way the velocity grid is shared between them, every rank receives the same charge density: at each point the quadrature over the whole velocity grid of each kinetic species weighted by its charge; without adiabatic species this is exactly what the serial calculator returns for the assembled distribution function. (The charge of an adiabatic species should be added once; it is added once per rank.)",
  "every grid, number of ranks, layout, set of species, quadrature weights and distribution function",
  "tests run one calculator on one grid with one number of ranks; the sum over ranks has to be right for every decomposition",
  ["src/geometryXYVxVy/poisson/mpichargedensitycalculator.cpp: MpiChargeDensityCalculator::operator()", "src/geometryXYVxVy/poisson/chargedensitycalculator.cpp: ChargeDensityCalculator::operator()", "src/mpi_parallelisation/mpilayout.hpp: MPILayout::distribute_idx_range"])
p("The distributed split Vlasov solver is the serial one",
  "On any number of ranks the MPI Vlasov solver applies the symmetric splitting x/2, y/2, vx/2, vy, vx/2, y/2, x/2, each advection with the right velocity or electric field component, between the two transposes; it never fails and the assembled result is exactly what the solver without MPI computes on the whole distribution function.",
  "every grid, number of ranks, layout, species, interpolator, electric field, time step and distribution function",
  "tests compare against an analytical advection on one grid; the agreement with the serial solver must hold for every decomposition and field",
  ["src/geometryXYVxVy/vlasov/mpisplitvlasovsolver.cpp: MpiSplitVlasovSolver::operator()", "src/geometryXYVxVy/vlasov/splitvlasovsolver.cpp: SplitVlasovSolver::operator()", "src/mpi_parallelisation/alltoalltranspose.hpp: AllToAllTranspose::operator()"])
p("A 2d2v run outputs the predictor-corrector states, whatever the number of ranks",
  "A run of the 2d2v code outputs steps+1 records: the n-th carries the time n*dt, the n-th state of the predictor-corrector scheme and the potential of that state, and only the last is marked as last; the returned distribution function is the last state; two runs on different numbers of ranks output the same records. With adiabatic species this uses that the Poisson solver ignores constants, which the FFT solver of the shipped simulation does.",
  "every number of steps (also negative or zero), ranks, layout, species, grid, interpolator, initial distribution and time step",
  "a simulation test runs a few steps on one or two ranks; the statement is about every history",
  ["src/geometryXYVxVy/time_integration/predcorr.cpp: PredCorr::operator()", "src/geometryXYVxVy/poisson/qnsolver.cpp: QNSolver::operator()", "simulations/geometryXYVxVy/landau/landau4d_fft.cpp: main", "src/pde_solvers/fft_poisson_solver.hpp: FFTPoissonSolver::operator()"])
p("A discrete mapping goes through the analytical mapping and keeps its pole",
  "Building a discrete mapping from an analytical one never fails and does not depend on the order of the parallel loop; at every point of the interpolation grid the discrete mapping returns the image of the analytical one; when the analytical mapping sends r=0 to one point, the discrete mapping does so for every theta, all its first control points are that point, and its O-point is that point whether it is computed on the host or on the device.",
  "every analytical mapping, B-spline degree and knots, interpolation grid, loop order",
  "tests compare two mappings on a few grids within a tolerance; the exact pole for all theta is needed by the polar splines",
  ["src/coord_transformations/discrete_poloidal_cs_spline_mapping_builder.hpp: DiscretePoloidalCSSplineMappingBuilder, set_curvilinear_to_cartesian_values", "src/coord_transformations/discrete_poloidal_cs_spline_mapping.hpp: DiscretePoloidalCSSplineMapping"])
p("Discrete mappings are determined by the grid, follow affine maps, and are linear in r for the circular mapping",
  "Two spline mappings with the same points on the grid have the same control points, so a mapping which is already a spline is reproduced exactly; translating, rotating or stretching the analytical mapping does the same to every control point; the discrete mapping of the circular mapping is (x0, y0) + r (c(theta), s(theta)) for all r and theta, with c, s the periodic splines through cos and sin, its Jacobian is r (c s' - s c'), and it satisfies all the conditions polar splines need.",
  "every spline space, interpolation grid, affine map and centre",
  "tests measure the interpolation error on a few grids",
  ["src/coord_transformations/discrete_poloidal_cs_spline_mapping_builder.hpp: DiscretePoloidalCSSplineMappingBuilder", "src/coord_transformations/circular_to_cartesian.hpp: CircularToCartesian::operator()", "src/coord_transformations/discrete_poloidal_cs_spline_mapping.hpp: jacobian, operator()"])
p("The refined discrete mapping has equal cells on the original domain",
  "The break points of the refined mapping are strictly increasing, start and end at the bounds of the original splines and cut the domain into the requested number of equal cells; the refined mapping goes through the image of every point of the refined grid and its singular range is the first circle of this grid.",
  "every analytical mapping, pair of original spaces, numbers of refined cells, uniform or not",
  "tests use one refinement of one mapping",
  ["src/coord_transformations/discrete_poloidal_cs_spline_mapping_builder.hpp: RefinedDiscretePoloidalCSSplineMappingBuilder"])
p("Break points of uniform and random meshes",
  "The uniform break points are n+1 increasing, equally spaced points from min to max exactly; the random ones are increasing points from min to max, each within non_uniformity/2 cells of its uniform position, whatever the random numbers.",
  "every bounds min < max, number of cells, non-uniformity and sequence of random numbers",
  "the random mesh depends on the time at which the test runs; a test sees one sequence",
  ["src/utils/mesh_builder.hpp: build_uniform_break_points, build_random_non_uniform_break_points"])
p("User-supplied interpolation points",
  "Given points become the grid (with periodic splines, followed by the image of the first one) when their number is right and no cell of the splines holds more than degree+1 of them, and an exception is raised otherwise; a uniform grid is returned only if every point is within the tolerance of it; the points of the caller are not changed.",
  "every spline space (degree, break points, periodic or not), every list of points, every tolerance",
  "tests pass one list of points per spline space",
  ["src/utils/non_uniform_interpolation_points.hpp: NonUniformInterpolationPoints::get_sampling, check_n_points_in_cell, get_domain"])
p("Command line of the simulations",
  "A simulation starts if and only if it is given a .yaml or .yml file, at iteration 0, or at the iteration given with --iter-restart; --dump-config writes the default parameters and exits with success; anything else exits with failure and writes nothing.",
  "every list of arguments, every file name, every iteration number",
  "there is an infinite number of command lines, and std::exit ends a test",
  ["src/io/input.cpp: parse_executable_arguments"])
p("Crash and restart of the (x, vx) simulations",
  "Whatever the history of a directory (simulations started from 0 or from any complete output file, with any number of iterations, each killed at any moment), every complete output file n holds the time, distribution and potential of the uninterrupted simulation after n*nbstep_diag iterations; a restarted simulation run to its end leaves the files of the uninterrupted one; a missing restart file is refused.",
  "every Boltzmann and Poisson solver, initial state, time step, history of sessions and crash point",
  "a test cannot kill the program at every point nor replay every sequence of restarts",
  ["simulations/geometryXVx/vlasovpoisson_xvx_fft.cpp: main", "simulations/geometryXVx/vlasovpoisson_xvx_fem_uniform.cpp: main", "simulations/geometryXVx/pdi_out.yml.hpp", "src/geometryXVx/initialisation/restartinitialisation.cpp: RestartInitialisation::operator()", "src/geometryXVx/time_integration/predcorr.cpp: PredCorr::operator()"])
p("Output files of the simulations",
  "A simulation writes one file every nbstep_diag iterations from the initial state on, and only those; each file holds the state after the iteration it stands for, with its time, which is never later than the requested one; the last state is saved exactly when the number of iterations is a multiple of nbstep_diag.",
  "every number of iterations, time step, time_diag or nbstep_diag, operators and previous content of the directory",
  "the schedule depends on arbitrary user parameters; the reference tests use one set of them",
  ["simulations/geometryXVx/pdi_out.yml.hpp", "simulations/geometryXY/guiding_centre/guiding_centre.cpp: main", "simulations/geometryXY/guiding_centre/pdi_out.yml.hpp", "simulations/geometryVparMu/collisions/test_collSpVparMu.cpp: main"])
p("Number of time steps of the simulations",
  "The number of time steps derived from the final time and the time step brings the simulation to the last step which does not exceed the final time, in exact arithmetic; in double precision it is that number or one more, and exact when the quotient is an integer.",
  "every final time and time step, every pair of doubles",
  "rounding of a quotient shows only for particular parameters",
  ["simulations/geometryXY/guiding_centre/guiding_centre.cpp: nbiter", "simulations/geometryRTheta/diocotron/diocotron.cpp: iter_nb", "simulations/geometryRTheta/vortex_merger/vortex_merger.cpp: iter_nb"])
p("Splines built from a derivative field use exactly the data the field stores",
  "Building a 2D spline from a field that stores a function and its derivatives hands the builder, for every grid, every number of derivatives required at the four ends and every stored data, exactly the stored values at the grid points, the derivatives along each direction at the right end, and the mixed derivatives at the right corner, so that an interpolating builder returns a spline with those values and derivatives; a field that lacks a needed derivative is reported; the builder works in any execution space.",
  "all grids, numbers of boundary derivatives, stored data, execution spaces and builders",
  "nine arguments indexed by end, corner, order and position: a test with symmetric data, one boundary condition or one memory space does not see a swapped corner, a missing derivative or a kernel launched in the wrong space.",
  ["src/utils/spline_builder_deriv_field_2d.hpp:SplineBuilderDerivField2D::operator(),fill_in_function,fill_in_deriv1,fill_in_deriv2,fill_in_cross_deriv"])
p("A batched iterative solve returns solutions or throws and leaves the right-hand sides alone",
  "Solving a batch of sparse systems with an iterative solver either leaves solutions meeting the documented stopping criterion in place of all the right-hand sides, changing nothing else, or throws and leaves the right-hand sides as they were, however the convergence check is distributed over threads and also when residuals are NaN; views with unit stride in the second dimension are read faithfully; the log has one entry per attempted system, in order, with the true residual, and says that a system did not converge exactly when the solve reports it.",
  "all matrices, right-hand sides, initial guesses, solver behaviours (including non-convergence and NaN), tolerances, thread distributions and view layouts",
  "the outcome depends on the scale of the right-hand side, on when the solver gives up, on the reduction order and on the padding of the views; tests use well-scaled systems that converge in contiguous views.",
  ["src/matrix_tools/matrix_utils.hpp:to_gko_multivector,check_conv,write_log,save_logger", "src/matrix_tools/matrix_batch_ell.hpp:MatrixBatchEll::solve,setup_solver", "src/matrix_tools/matrix_batch_csr.hpp:MatrixBatchCsr::solve,setup_solver"])
p("Replicating copies put every value at its place",
  "transpose_replicate_deep_copy fills the whole destination field: at every point it holds the source's value at the same indices in the source's dimensions, whatever the order of the dimensions of the two fields and whatever the index in the dimensions the source lacks.",
  "every pair of fields (any dimensions, orders, fronts and sizes), the source's dimensions being among the destination's",
  "The copy is generic in the dimensions; a test checks one pair of layouts of one size.",
  ["src/collisions/collision_common_configuration.hpp: CollisionConfigurationData::transpose_replicate_deep_copy"])
p("The collision configuration hands koliop what it documents, or is rejected",
  "A collision configuration is rejected exactly when a documented requirement fails (numbers of points powers of two, uniform grids, nustar0 = 1); otherwise the operator library receives the extents, masses, charges, coordinates, quadrature coefficients, |B|, B*_s (as [species][theta][r][vpar]), zero masks and sqrt(2), each in its argument, and never unwritten or missing memory.",
  "every index range, geometry, species collection, coordinates, coefficients, |B| and B*_s",
  "Twenty-five positional arguments of similar types: a test with one species, or with equal sizes or values, does not distinguish permutations.",
  ["src/collisions/collision_common_configuration.hpp: CollisionConfigurationData", "src/geometryVparMu/collisions/collision_configuration.hpp: CollisionConfiguration", "src/collisions/collision_operator.cpp: do_operator_initialisation", "src/collisions/collision_operator.hpp: CollisionOperator"])
p("Collision operators own their koliop handle",
  "In every program each koliop handle is released exactly once, after its last use; operator() returns when the collision is done, so that collisions take effect in program order; and no failure reported by koliop is ignored.",
  "every sequence of constructions, copies, applications and destructions of operators, every status reported by koliop",
  "Tests use one operator once; the histories (several operators, copies, failures) are unbounded.",
  ["src/collisions/collision_operator.hpp: CollisionOperator, ~CollisionOperator, operator()", "src/collisions/collision_operator.cpp: do_operator_initialisation, do_operator_deinitialisation"])
p("A vector field is its components, each at its own place",
  "A vector field memory block allocates, for each of its tags, a field on the index range, sharing no memory with the others or with anything allocated before; operator()(idx) returns the vector of the components at idx in the order of the tags, ddcHelper::get<Tag> designates the component of that tag, and assign_vector_field_element(field, idx, v) makes the field hold v at idx and changes nothing else, so that a loop over points (in any order) leaves every point of it with its own vector.",
  "every list of distinct tags, every index range, layout of the components, memory and order of the points",
  "The index arithmetic depends on the tags, the number of dimensions and the strides; tests check two tags on one range.",
  ["src/data_types/vector_field_common.hpp: VectorFieldCommon", "src/data_types/vector_field_mem.hpp: VectorFieldMem", "src/data_types/vector_field.hpp: VectorField, assign_vector_field_element"])
p("A slice of a vector field is the same memory seen from the remaining dimensions",
  "operator[] of a vector field with an index (or a sub-range) exists exactly when the index (the range) lies in the field's range; it has the same tags, the remaining dimensions (the sub-range), and at each of its points the very elements (same addresses, for every memory) that the field has at the point completed with the fixed indices.",
  "every vector field (tags, strides, dimensions, order), every set of fixed indices or sub-ranges, every memory",
  "The slice is taken component by component with different dimensions left; tests slice one layout along one dimension.",
  ["src/data_types/vector_field.hpp: VectorField::operator[]", "src/data_types/vector_field_mem.hpp: VectorFieldMem::operator[]"])
p("Copying a vector field copies every component to the same component",
  "ddcHelper::deepcopy between vector fields of the same tags, of ranges of the same extents and of disjoint memories leaves, at every point of the destination, the vector that the source holds at the corresponding point (the starts of the ranges may differ), and changes nothing else; different extents are caught by the assertion.",
  "every pair of vector fields (layouts, strides, starts of the ranges), every content",
  "Tests copy between fields of the same range and layout.",
  ["src/data_types/vector_field_common.hpp: ddcHelper::deepcopy, VectorFieldCommon::deepcopy"])
p("The PDI helpers pair names and data correctly",
  "PDI_get_arrays gives to each vector the values stored under the name preceding it, whatever the number of pairs, and touches no other vector; PDI_expose_vector_field exposes component i under the stem followed by suffix i; PDI_expose_idx_range exposes the starts and extents of the index range in the order of the dimensions.",
  "every number of arrays, every file content, vector field, index range and set of names",
  "Variadic index arithmetic over interleaved arguments: a test covers one or two arrays and a complete file.",
  ["src/io/pdi_helper.hpp: PDI_get_arrays, PDI_expose_vector_field, PDI_expose_idx_range, detail::get_name_tuple, detail::get_vector_tuple"])
p("norm_inf is the largest absolute value, on one or several patches",
  "norm_inf of a coordinate, a vector, a field, a vector field or a multipatch field is the largest absolute value of its components at all its points (on all patches), whatever the order in which the parallel reduction combines the points; error_norm_inf is the norm of the difference: zero exactly for equal fields, and it satisfies the triangle inequality.",
  "every field, number of components, number of patches and order of the reduction",
  "The schedules of the reduction are not controlled by a test, and the tests use the norm to measure errors instead of testing it.",
  ["src/math_tools/l_norm_tools.hpp: norm_inf, error_norm_inf", "src/multipatch/utils/multipatch_math_tools.hpp: norm_inf, error_norm_inf"])
p("norm_L1 and norm_L2 are norms",
  "For positive quadrature coefficients norm_L1 and norm_L2 are norms on the values at the quadrature points (non-negative, definite, homogeneous, triangle inequality): the quadratures of the absolute value, and the root of that of the square; error_norm_* are the norms of the difference; norm_L1 is at most volume times norm_inf and sqrt(volume) times norm_L2; a field which lacks a quadrature point is never read.",
  "every quadrature (dimensions, coefficients), every field",
  "Inequalities between norms are universal statements; tests compare a few values.",
  ["src/math_tools/l_norm_tools.hpp: norm_L1, error_norm_L1, norm_L2, error_norm_L2", "src/quadrature/quadrature.hpp: Quadrature::operator()"])
p("Multipatch objects are indexed by patch, whatever the order of the patches",
  "get<Patch>() of a MultipatchType, MultipatchField or MultipatchFieldMem is the element given for that patch; conversions (reordering, sub-collections, views, from temporaries) preserve the element of every patch and refuse to compile when a patch is missing or the types differ; idx_range, get_field and get_const_field act patch by patch; a MultipatchFieldMem built from index ranges owns for each patch a new field of the size of that patch's range; deepcopy makes the field of each patch equal to the source's field of the same patch and changes nothing else.",
  "every list of patches and order, every family of types, elements and memory contents",
  "Selection by type over arbitrary packs of patches and orders; tests use two or three patches in one order.",
  ["src/multipatch/data_types/multipatch_type.hpp: MultipatchType", "src/multipatch/data_types/multipatch_field.hpp: MultipatchField, ddcHelper::deepcopy", "src/multipatch/data_types/multipatch_field_mem.hpp: MultipatchFieldMem"])
p("The multipatch spline builder builds every patch from its own data, with the boundary conditions of its position",
  "MultipatchSplineBuilder uses BcLower or BcUpper at the ends of a patch lying on the outside of the domain and BcTransition at those joined to another patch; one call leaves, in the coefficients of each patch, what the builder of that patch makes of the values and derivatives of that patch, and changes nothing else; it succeeds exactly when derivatives are given at the HERMITE ends and only there; values which agree on both sides of an interface give splines which agree there.",
  "every connectivity, order of patches, boundary conditions, values, optional derivatives and memory",
  "The boundary conditions depend on the connectivity of each patch; tests use two patches in a row.",
  ["src/multipatch/spline/multipatch_spline_builder.hpp: MultipatchSplineBuilder", "src/multipatch/connectivity/connectivity_details.hpp: equivalent_edge_t"])
p("The two-dimensional multipatch spline builder passes every derivative to its place",
  "MultipatchSplineBuilder2D chooses the boundary conditions of the four edges of each patch by what lies behind each edge, and calls the builder of each patch once, with that patch's coefficients, values and its (up to) eight fields of derivatives, each in its own position; the coefficients of a patch depend on the data of that patch only and nothing else changes.",
  "every connectivity, order of patches, boundary conditions, subset of the derivatives given, values and memory",
  "Eight optional arguments of three types: tests give all or none of them, with symmetric data.",
  ["src/multipatch/spline/multipatch_spline_builder_2d.hpp: MultipatchSplineBuilder2D"])
p("Printing an array writes all its elements, in order",
  "operator<< of a multi-dimensional view writes every dimension between brackets, the elements of the last dimension separated by commas, reading only elements of the view and each at the place its layout gives; two arrays with non-empty dimensions whose printed texts are equal have the same number of dimensions, the same extents and the same element texts.",
  "every number of dimensions, extents, strides, buffer and element type",
  "The printing is recursive on the number of dimensions; the test prints one 2x2x2 array.",
  ["src/utils/view.hpp: operator<<, detail::stream_impl, SpanND, as_span"])
p("Every parameter of the configuration reaches the species it is written for",
  "The equilibrium and perturbation objects built from the input file hold, for every kinetic species, the values of its own entries, each parameter in its own field; a missing or ill-typed entry is an exception, never a default value; integers of the file are kept; strings are freed once.",
  "every configuration file, every index range of species",
  "The readers loop on the species of the file; tests use one or two species with identical parameters.",
  ["src/paraconfpp/paraconfpp.hpp: PCpp_double, PCpp_int, PCpp_string, PCpp_get", "src/geometryXVx/initialisation/maxwellianequilibrium.cpp: init_from_input", "src/geometryXVx/initialisation/bumpontailequilibrium.cpp: init_from_input", "src/geometryXVx/initialisation/singlemodeperturbinitialisation.cpp: init_from_input", "src/geometryVparMu/initialisation/maxwellianequilibrium.cpp: init_from_input"])
p("The configuration selects the equilibrium and the spline grids",
  "The entry Algorithm.equilibrium selects the Maxwellian or the bump-on-tail equilibrium, any other text is an exception; init_spline_dependent_idx_range initialises the B-splines and then the grid, each exactly once, from the entries or arrays documented for the kind of B-splines and of interpolation points.",
  "every configuration file, mesh identifier, kind of B-splines and of points, arrays",
  "The choices combine run-time texts with compile-time kinds; each simulation exercises one combination.",
  ["src/geometryXVx/initialisation/iequilibrium.cpp: equilibrium::init_from_input", "src/io/input.hpp: init_spline_dependent_idx_range, init_pseudo_uniform_spline_dependent_idx_range"])
p("Displayed durations recombine",
  "display_time_difference shows hours, minutes, seconds and milliseconds which recombine to the duration truncated to milliseconds, with minutes and seconds below 60 and milliseconds below 1000.",
  "every pair of instants",
  "The components are differences of four truncations; nothing tests them.",
  ["simulations/utilities/simulation_utils_tools.hpp: display_time_difference", "src/geometryRTheta/time_solver/itimesolver.hpp: ITimeSolverRTheta::display_time_difference"])
p("In floating point, restricting a periodic coordinate ends inside the domain",
  "restrict_to_idx_range, executed in IEEE binary64, returns after finitely many additions of the period a coordinate in [x_min, x_min + length) which is the given coordinate moved by a whole number of periods, up to rounding.",
  "every finite x_min, period and coordinate, every accuracy of the mathematical functions of the far branch",
  "The loops compare and subtract rounded numbers; the tests use the domain [-1, 1] and a tolerance of 1e-8.",
  ["src/utils/ddc_helper.hpp: restrict_to_idx_range"])
p("In floating point, the periodic wrapping of the evaluators stays in the domain",
  "restrict_to_bspline_domain and the periodic branch of LagrangeEvaluator, executed in IEEE binary64, turn every coordinate into a coordinate of [rmin, rmax] which is the given coordinate moved by a whole number of periods, up to rounding.",
  "every finite domain and coordinate",
  "The quotient by the period can be rounded up to an integer; only special pairs of periods and coordinates show it.",
  ["src/utils/ddc_helper.hpp: restrict_to_bspline_domain", "src/interpolation/lagrange_evaluator.hpp: LagrangeEvaluator::eval"])
p("A periodic non-uniform Lagrange evaluator finds a knot for every coordinate",
  "For increasing break points and any finite coordinate, the search of the closest knot by a periodic evaluator ends, without failing an assertion, and the cell it finds encloses the wrapped coordinate.",
  "every number and position of break points, degree and coordinate",
  "The bisection relies on the wrapped coordinate being in the domain, which rounding can break; a loop that does not end is never seen by a passing test.",
  ["src/interpolation/lagrange_evaluator.hpp: LagrangeEvaluator::eval, find_stencil, getclosest"])
p("In floating point, the uniform Lagrange stencil surrounds the coordinate",
  "For every coordinate between the first and the last knot of a uniform grid, the non-periodic Lagrange evaluator executed in IEEE binary64 chooses degree + 1 consecutive knots of the grid, the first one not above the coordinate and the last one not below, so that the assertions of the basis hold.",
  "every degree, number of cells up to 2^28, finite origin, step and coordinate",
  "The quotient (x - origin) / step is rounded: only coordinates next to a knot, for particular origins and steps, are put in the wrong cell.",
  ["src/interpolation/lagrange_evaluator.hpp: LagrangeEvaluator::find_stencil, getclosest", "src/interpolation/lagrange_basis_uniform.hpp: UniformLagrangeBasis::Impl::eval_basis"])
p("In floating point, the nodes of a uniform Lagrange stencil are recognised up to rounding only",
  "For a coordinate between the ends of its stencil, the uniform Lagrange basis executed in IEEE binary64 either returns the values of a node whose coordinate is the given one up to rounding, or uses the barycentric formula with differences above the tolerance; its assertions hold.",
  "every degree, origin, step and coordinate, when the doubles resolve the cells",
  "The tests use grids near the origin; the offset (x - start) / step is rounded relatively to the size of the coordinates.",
  ["src/interpolation/lagrange_basis_uniform.hpp: UniformLagrangeBasis::Impl::check_if_node, calculate_values_between_nodes"])
p("In floating point, the periodic uniform Lagrange stencil surrounds the coordinate it evaluates",
  "For every coordinate of the period, the periodic uniform Lagrange evaluator executed in IEEE binary64 reads degree + 1 consecutive coefficients of the extended knots, at a coordinate which is the given one or the given one moved by a period up to rounding, enclosed by the stencil, so that the assertions of the basis hold.",
  "every degree, number of cells, origin, step and coordinate, when the doubles resolve the cells",
  "The wrapping of the stencil and of the coordinate are decided by different roundings; only coordinates next to the ends of the period or to a knot show a disagreement.",
  ["src/interpolation/lagrange_evaluator.hpp: LagrangeEvaluator::find_stencil, getclosest", "src/interpolation/lagrange_basis_uniform.hpp: UniformLagrangeBasis::Impl::eval_basis"])
p("In floating point, the uniform mesh builder gives increasing points with exact ends",
  "build_uniform_break_points executed in IEEE binary64 returns n_cells + 1 finite increasing points whose first and last are exactly the given ends and which are equidistant up to rounding, so that a coordinate between the ends is found by the break-point search.",
  "every pair of ends and every number of cells, when a cell is not below the resolution of the doubles",
  "The last inner point and the exact upper end are computed in different ways; only particular ends and numbers of cells could put them out of order.",
  ["src/utils/mesh_builder.hpp: build_uniform_break_points"])
# APPEND HERE
open('/verif/properties.jsonl','w').write(''.join(json.dumps(x)+'\n' for x in P))
print(len(P))
