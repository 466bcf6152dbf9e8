{
 "C01": [
  "proved",
  "all six storage classes; C01_dense_range_check_refuted: Matrix_Dense::set_element does not check bounds (outside the property's legal writes)"
 ],
 "C02": [
  "proved",
  "any two factory requests, including periodic and block ones"
 ],
 "C03": [
  "partial",
  "proved for every block matrix whose first block is not larger than the banded region (no_overlap); refuted otherwise (C06) and for solve_multiple_inplace; LAPACK is an oracle"
 ],
 "C04": [
  "partial",
  "same restriction as C03"
 ],
 "C05": [
  "proved",
  "LAPACK is an oracle"
 ],
 "C06": [
  "partial",
  "proved when the first block is not larger than the banded region; refuted otherwise (overlapping memcpy), and for several right-hand sides"
 ],
 "C07": [
  "proved",
  "the clause of setup_solver's stability check is separately refuted (C07_stability_check_*_refuted): it accepts singular pivots"
 ],
 "C08": [
  "partial",
  "proved for the first matrix always and for all matrices when the triplets are sorted by row; refuted otherwise (C08_unsorted_triplets_refuted)"
 ],
 "C41": [
  "partial",
  "all clauses proved except the range check on k, which is refuted (k equal to the number of stored elements is accepted)"
 ],
 "C42": [
  "partial",
  "proved for sorted patterns and batches of one matrix; refuted for two or more matrices (semantics of Ginkgo's create_view_for_item assumed)"
 ],
 "C09": [
  "proved",
  "exact reals; order proved for arbitrary smooth systems of n equations"
 ],
 "C10": [
  "proved",
  ""
 ],
 "C11": [
  "proved",
  ""
 ],
 "C12": [
  "proved",
  ""
 ],
 "C13": [
  "partial",
  "proved (both directions, round trip) for layouts whose distributed dimensions are listed in the order of the data; refuted otherwise (C13_distributed_order_refuted, the repository's own 4-D test layout with 4 ranks); MPI_Alltoall by its standard semantics"
 ],
 "C14": [
  "proved",
  ""
 ],
 "C15": [
  "partial",
  "proved for every admissible number of points except two points (periodic, or mixed rule), where the code has undefined behaviour (refuted theorems)"
 ],
 "C16": [
  "proved",
  "reductions and teams modelled sequentially; exact reals so the order of summation is irrelevant"
 ],
 "C43": [
  "proved",
  "tables checked to 1e-24 by kernel computation, composite rule by proof"
 ],
 "C17": [
  "proved",
  "non-periodic, periodic and boundary-value operators; exact reals"
 ],
 "C18": [
  "proved",
  "exact reals; loops bounded by 10 iterations"
 ],
 "C39": [
  "proved",
  ""
 ],
 "C40": [
  "partial",
  "ipow, modulo proved on their whole domain except ipow(a,INT_MIN) (overflow); factorial exact up to 20, wraps from 21; neg_1_pow refuted for negative odd arguments"
 ],
 "C44": [
  "proved",
  "the stale-coefficient behaviour outside the documented usage is recorded as C44_stale_coefficients_refuted"
 ],
 "C19": [
  "proved",
  "tag types modelled as values, type sequences as lists"
 ],
 "C20": [
  "proved",
  "exact arithmetic; DDC type_seq_rank modelled as first occurrence"
 ],
 "C21": [
  "proved",
  "determinant identity by Laplace expansion for every dimension"
 ],
 "C45": [
  "proved",
  ""
 ],
 "C22": [
  "proved",
  "Exact reproduction up to the node tolerance of the code, which is kept in the statement. Findings: with the smallest accepted number of points the builder of a periodic basis reads out of bounds; the non-uniform basis ignores the sub-range it is given."
 ],
 "C23": [
  "proved",
  ""
 ],
 "C46": [
  "proved",
  ""
 ],
 "C24": [
  "proved",
  "Sign of zero in atan2 not modelled."
 ],
 "C25": [
  "proved",
  ""
 ],
 "C26": [
  "proved",
  "Finding: the component accessor of CartesianToCylindrical accepts no tag (refuted theorem)."
 ],
 "C27": [
  "proved",
  ""
 ],
 "C28": [
  "proved",
  ""
 ],
 "C47": [
  "proved",
  ""
 ],
 "C48": [
  "partial",
  "jacobian() of a product has the wrong sign when the argument type lists the dimensions in another order than the transformations (refuted); proved for products of two linear transformations."
 ],
 "C29": [
  "proved",
  "exact reals"
 ],
 "C30": [
  "partial",
  "exact for locally neutral plasmas of singly charged ions and at first order; refuted otherwise: C30_nonneutral_refuted (the amplitudes of the second stage are those of the half-step state, the difference that of the initial one), C30_multicharge_refuted (the ion charge is ignored); C30_defect gives the exact drift"
 ],
 "C31": [
  "partial",
  "all clauses proved except at the accepted end values of the extent: C31_extent_zero_refuted (both masks vanish), C31_extent_half_refuted (normalisation by zero)"
 ],
 "C32": [
  "proved",
  "exchange terms for all states; conservation by the discretised term for velocity grids that integrate the Maxwellian exactly, exact defect otherwise (C32_moments)"
 ],
 "C33": [
  "partial",
  "proved without an adiabatic species; refuted with one (C33_adiabatic_refuted: the code compares the last kinetic species with itself)"
 ],
 "C34": [
  "partial",
  "numbering, charges, errors and kinetic look-ups proved; refuted: look-up of the mass of an adiabatic electron, restart with an adiabatic species"
 ],
 "C38": [
  "partial",
  "Vlasov solver: full property; right-hand-side solver: refuted symmetric order (C38_rhs_order_refuted), proved when the sources commute"
 ],
 "C49": [
  "proved",
  "C49_null_solver_refuted: NullQNSolver leaves the field buffers uninitialised"
 ],
 "C50": [
  "proved",
  "moments of the shape on velocity grids that integrate the Maxwellian exactly"
 ],
 "C52": [
  "proved",
  ""
 ],
 "C51": [
  "partial",
  "proved: the grids, the Crank-Nicolson system and its solution when no pivot vanishes (which is proved for small dt and under sign conditions), the coefficients, conservation by Vcoll/Tcoll, mass balance. Missing: pivots for every dt (false without conditions); refuted: index ranges not starting at 0."
 ],
 "C35": [
  "partial",
  "coordinates: proved. Index search, non uniform grids: proved for edges of the same periodicity. Uniform grids: proved with the index rescaling in exact arithmetic, and in IEEE binary64 when the ratio of the cell counts is a binary fraction; refuted in binary64 in general (32 against 123 cells). Refuted: one-point targets."
 ],
 "C53": [
  "partial",
  "proved for non periodic edges (uniform: both orientations; non uniform: same orientation). Refuted: periodic uniform edges, opposite orientation on non uniform grids, a single common point."
 ],
 "C36": [
  "partial",
  "queries on patches/edges and the grids of a line are proved; the interface list of a line is proved for open lines and for closed lines left into a FRONT edge, and shown to contain duplicates otherwise (C36_reversed_ring_refuted); in lines crossing patches in opposite directions the interfaces are not chained (C36_reversed_row_refuted); an edge in two interfaces is accepted (C36_double_edge_refuted)"
 ],
 "C37": [
  "partial",
  "bijection between accepted (orders, position) combinations and allocated cells, slices, raw regions, views, copies and lifetime proved for every shape; operator[](Idx) is proved only when order 0 is asked along the positions left free (otherwise C37_index_slice_refuted), lifetime excludes move assignment (C37_move_assignment_refuted: double free); orders above NDerivs are not checked (C37_order_unchecked_refuted)"
 ],
 "C54": [
  "partial",
  "constructor, locator (exact and within tolerance), values, derivatives and extrapolation proved for any number of rings; the evaluation theorem needs rings that touch exactly, because with the gap the constructor tolerates the point may leave the chosen patch (C54_gap_refuted); the one-dimensional B-spline basis values of DDC are an oracle"
 ],
 "C55": [
  "partial",
  "phi exact for every density, in any number of dimensions and batches; E exact in the directions without a component at the Nyquist frequency (always so for an odd number of points), wrong otherwise (C55_nyquist_refuted); ddc::fft/ifft and the Fourier mesh are given by their documented meaning"
 ],
 "C56": [
  "proved",
  "interpolation methods are abstract (build, eval); the Lagrange method of the library is shown to be an instance"
 ],
 "C57": [
  "proved",
  ""
 ],
 "C58": [
  "proved",
  "the interpolation of the advection field is an oracle pair (build, eval) of DDC; real arithmetic exact"
 ],
 "C59": [
  "proved",
  "the interpolation of the function is an oracle pair (build, eval) of DDC; real arithmetic exact"
 ],
 "C60": [
  "proved",
  "B-spline basis, Gauss points and the spline of the density are inputs satisfying stated properties (partition of unity, table inside the basis, quadrature that controls the derivative); LAPACK is an oracle; exact real arithmetic; an assertion failure with two basis functions is a finding (_refuted)"
 ],
 "C61": [
  "proved",
  "same inputs as C60"
 ],
 "C62": [
  "proved",
  "exact real arithmetic; the mapping's jacobian is assumed to be the determinant of its Jacobian matrix (proved for the analytic mappings in C24-C26)"
 ],
 "C63": [
  "proved",
  "same model as C62; B = 0 (NaN in the code) is excluded"
 ],
 "C64": [
  "proved",
  "spline builder and evaluator are oracles; two creators with different dimension orders sharing a cache are covered by the refuted theorem"
 ],
 "C65": [
  "partial",
  "holds at every angle but the last: the last theta row is overwritten with the first (C65_last_angle_refuted); C65_repeated_angle: with a repeated last angle every value is the mean; spline builder/evaluator are parameters"
 ],
 "C66": [
  "proved",
  "orders up to 20: factorial(size_t) wraps from 21 on (C40); exact real arithmetic"
 ],
 "C67": [
  "partial",
  "extrapolation rules are never applied (C67_extrapolation_refuted); the builder leaves coefficients unwritten with two periodic dimensions (C67_two_periodic_refuted); the other clauses are proved"
 ],
 "C68": [
  "partial",
  "proved for all grids with at least 3 cells on patch 1 (and on patch 2 at least 3, or 2 without extra point); refuted with 2 cells on patch 1 (C68_two_cells_refuted: stale slot), with 2 cells and an extra interpolation point on either patch (C68_two_cells_extra_1_refuted, C68_two_cells_extra_2_refuted) and for the check of the number of cells (C68_one_cell_refuted); exact real arithmetic; both patches with 2 cells, the second with an extra point, is not covered"
 ],
 "C69": [
  "partial",
  "proved for equal steps; refuted for different steps of the two patches (C69_different_steps_refuted: left and right cell lengths exchanged)"
 ],
 "C70": [
  "proved",
  "reals for doubles; D = 21 refuted (64-bit factorial)"
 ],
 "C71": [
  "proved",
  ""
 ],
 "C72": [
  "proved",
  "B-spline evaluation of DDC is an oracle described by the Cox - de Boor recursion; reals for doubles; more than C+1 radial cells and, for C = 1, a second row of control points not reduced to the pole"
 ],
 "C73": [
  "proved",
  "same oracle; differentiability in the plane assumes that the distance to the pole is at least mu r (shown for a disc)"
 ],
 "C74": [
  "partial",
  "periodicity, outer rule and definedness for more than C+1 radial cells; refuted for fewer radial cells (the coefficients are read out of range) and for the derivative operators (the angle is not wrapped)"
 ],
 "C75": [
  "proved",
  "ddc::integrals is an oracle: integrals of the B-splines over the domain, 0 for repeated poloidal elements"
 ],
 "C76": [
  "proved",
  "derivatives strictly inside of the cells; DDC's 2D evaluator is an oracle"
 ],
 "C77": [
  "proved",
  "int is unbounded"
 ],
 "C78": [
  "proved",
  "arithmetic over the reals; parallel iterations are atomic and in any order"
 ],
 "C79": [
  "proved",
  "Ginkgo's conjugate gradient is an oracle with residuals of at most eps"
 ],
 "C80": [
  "proved",
  "exact arithmetic"
 ],
 "C81": [
  "proved",
  "refutations: the limits of the solver, see Findings"
 ],
 "C82": [
  "proved",
  "potential given by the evaluator's derivatives (polar evaluator modelled in Psp, DDC's evaluator an oracle); exact real arithmetic"
 ],
 "C83": [
  "proved",
  "jacobian() assumed equal to the determinant of the Jacobian matrix (proved for the analytical mappings in C19)"
 ],
 "C84": [
  "proved",
  "refuted: the code advects with (E_y, -E_x)"
 ],
 "C85": [
  "proved",
  "refuted part: events are labelled one dt early"
 ],
 "C86": [
  "proved",
  "refuted parts: the documented correction field and second order accuracy; what is implemented is proved"
 ],
 "C87": [
  "proved",
  "refuted parts: the commented prediction field, the density of the last event with separate memory spaces; what is implemented is proved"
 ],
 "C88": [
  "proved",
  "refuted part: silent return after 50 iterations"
 ],
 "C89": [
  "proved",
  ""
 ],
 "C90": [
  "partial",
  "For W1 > 0 the implemented equation is not the documented one (refuted with a concrete geometry); R1 = 0 gives no finite number (refuted). Negative modes and rounding are not covered; the correctness of the documented relation itself (Davidson) is physics and not proved."
 ],
 "C91": [
  "proved",
  "Exact real arithmetic."
 ],
 "C92": [
  "proved",
  "The solver is an oracle; convergence of the iteration is not claimed (the code does not ensure it: two refuted statements)."
 ],
 "C93": [
  "proved",
  "One point of the grid at a time; exact real arithmetic."
 ],
 "C94": [
  "proved",
  "The Poisson solver and the advections are oracles with results in res; hypothesis: the solver does not modify its right-hand side (otherwise refuted)."
 ],
 "C95": [
  "proved",
  ""
 ],
 "C96": [
  "proved",
  ""
 ],
 "C97": [
  "proved",
  "the equilibrium with unit mass; for other masses the claim about the density is refuted (see Findings)"
 ],
 "C98": [
  "proved",
  ""
 ],
 "C99": [
  "proved",
  "for kinetic species; that the adiabatic charge is added once is refuted with more than one rank (see Findings)"
 ],
 "C100": [
  "proved",
  ""
 ],
 "C101": [
  "proved",
  ""
 ],
 "C102": [
  "proved",
  ""
 ],
 "C103": [
  "proved",
  ""
 ],
 "C104": [
  "proved",
  ""
 ],
 "C105": [
  "partial",
  "strictness is refuted for the default non_uniformity = 1 (weak order proved) and order for more than 1"
 ],
 "C106": [
  "partial",
  "the count of points is exact when no inner cell is empty; refuted otherwise (overconstrained cells accepted); the argument is modified for periodic splines (refuted); equally spaced points inside the domain are refused (refuted)"
 ],
 "C107": [
  "partial",
  "start, restart, dump and failure characterised for every command line; validation of the restart iteration and of the dump file is refuted"
 ],
 "C108": [
  "partial",
  "the content of every complete file, every crash point and the equivalence with the uninterrupted run are proved; refuted: a restart can lose the file it starts from, --iter-restart is a file number and not an iteration, a changed time_diag breaks the order of the files"
 ],
 "C109": [
  "partial",
  "the schedule of three executables is proved; refuted: saving the last state, exact spacing by time_diag, number of applications of the collision operator; time_diag < deltat is undefined behaviour"
 ],
 "C110": [
  "partial",
  "guiding centre: exact in real arithmetic, within one in binary64 (proved for all doubles); refuted for decimal parameters and for the polar executables, for which the exact case and bounds are proved"
 ],
 "C111": [
  "partial",
  "Arguments, interpolation and 'nothing missing' proved for every grid, boundary condition and data when the class runs in the default execution space (or needs no mixed derivative). Refuted: missing derivatives are never reported by an exception and lead to out-of-bounds reads; the mixed-derivative kernel runs in the default execution space whatever the class's."
 ],
 "C112": [
  "partial",
  "Outcome, atomicity and log of ELL, batch CSR and per-system CSR solves proved for every solver behaviour, batch, layout without padding and thread distribution. Refuted: padded views are misread; the ELL solver documents and configures a relative criterion but checks the absolute one (spurious exceptions and silently wrong solutions); the log can say 'did not converge' for a solve that converged."
 ],
 "C113": [
  "proved",
  "Fields as layout-right arrays of any dimensions; uncovered sources shown to read outside."
 ],
 "C114": [
  "partial",
  "Proved for every geometry (spoofed or not) and every VparMu configuration; the claim that every dimension is checked for a power of two, that mu is checked for uniformity and that the coefficients' sizes are checked are refuted. Koliop is an oracle."
 ],
 "C115": [
  "partial",
  "Proved for programs without copies and with large enough distribution functions; refuted for copies (double release) and for smaller distribution functions (no check). Koliop is an oracle."
 ],
 "C116": [
  "partial",
  "Proved for vector fields whose components share their range (all those of VectorFieldMem and their slices); refuted for vector fields built from fields of different ranges, which nothing checks. One memory space."
 ],
 "C117": [
  "proved",
  "Slices by indices and by sub-ranges, with the converse (outside: undefined behaviour)."
 ],
 "C118": [
  "proved",
  "Under disjointness of the two memories; the assertion on the extents is modelled as enabled."
 ],
 "C119": [
  "partial",
  "Proved for complete files and paired arguments; refuted for an odd number of arguments and for missing data (silently ignored). PDI is an oracle."
 ],
 "C120": [
  "partial",
  "Proved for numbers (infinities included) in exact arithmetic; refuted for NaN, which is ignored for vectors and on several patches, and makes the norm of a field depend on the schedule."
 ],
 "C121": [
  "partial",
  "Proved for fields containing the quadrature points and positive coefficients; refuted: the range of the field is not checked; a negative coefficient gives NaN. Exact arithmetic."
 ],
 "C122": [
  "partial",
  "Proved when T gives different types to different patches; refuted otherwise (get does not compile), and the constructors MultipatchFieldMem([label,] args...) never compile."
 ],
 "C123": [
  "proved",
  "For every solver of the patches (DDC's builder is a parameter; its rule on derivatives is stated as a definition); fields of different patches do not share memory."
 ],
 "C124": [
  "proved",
  "For every solver of the patches (DDC's builder is a parameter)."
 ],
 "C125": [
  "partial",
  "Proved unless the last dimension is empty: refuted then (std::size_t underflow, out-of-bounds read)."
 ],
 "C126": [
  "partial",
  "Proved for all files, with integers which are values of int; larger integers are wrapped (refuted), and the string leaks when its copy throws (refuted)."
 ],
 "C127": [
  "partial",
  "Proved, except that the documented entry _MeshFile is not read (refuted)."
 ],
 "C128": [
  "proved",
  "For both signs of the duration; doubles are exact (below 2^53 ms)."
 ],
 "C129": [
  "partial",
  "Proved when x_min + length is exact; refuted otherwise: 1.2 on [0.2, 1.2) becomes 0.19999999999999996, and with a period below the spacing of doubles the loop does not end."
 ],
 "C130": [
  "partial",
  "Proved up to 2^-28 periods, and exactly on domains [0, 2^e]; refuted in general: 7.7 on [0, 1.1] becomes -8.9e-16."
 ],
 "C131": [
  "partial",
  "Proved for coordinates of the domain; refuted outside: break points 0, 0.5, 1.1 and the coordinate 7.7 make the bisection endless (or an assertion fail)."
 ],
 "C132": [
  "partial",
  "Proved for degree 2 and more, and for every degree on a grid which begins at 0; refuted for degree 1: on the knots -1 + 0.7 i the assertion of eval_basis fails at 1.0999999999999999."
 ],
 "C133": [
  "partial",
  "Proved when the step is at least 2^-40 times the size of the coordinates; refuted for a step below the spacing of doubles."
 ],
 "C134": [
  "partial",
  "Proved for degree 2 and more; refuted for degree 1 by the same coordinate as C132."
 ],
 "C135": [
  "partial",
  "Proved when a cell is at least 2^-40 times the size of the ends; refuted for 4 cells between 2^53 and 2^53 + 2 (equal points); non-decreasing points for cells of any size."
 ]
}