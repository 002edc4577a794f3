# Formal model of MML in Rocq

## 1. How the model is organised

`rocq/theories` contains, for each area of the library, up to four files:

* `X_Model.v` – Gallina functions that follow the C++ functions one by one (citations in comments);
* `X_Spec.v` – a small specification written without reference to the model (walks in a graph,
  least weight, membership in a set of reals, value of a polynomial, matrix product, ...);
* `X_Proofs.v` – lemmas and invariants;
* `X_Props.v` – the theorems, one block per property, each with `Print Assumptions` and a concrete,
  computed case that meets its hypotheses.

Conventions

* C++ outcomes. `Base.v` defines `res A = Ok a | Throw e | UB | NoFuel`.  `Throw` is a C++ exception, `UB` is
  undefined behaviour (out-of-range index of a raw `operator[]`, ...).  Containers are lists; reading or
  writing outside a list is `UB`, never a default value.  So a theorem concluding `= Ok ...` also says
  that the function neither throws nor runs into undefined behaviour.
* Loops. `for`-loops are structurally recursive folds over the index range; `while`-loops carry fuel,
  and running out of fuel is a separate visible outcome which theorems rule out by giving a
  sufficient amount of fuel (this is the termination proof).
* Numbers. `Real` is `double` in MML.  Algorithms are modelled over an abstract record of operations
  and are proved correct (a) for arithmetic satisfying only order laws that hold for IEEE
  doubles without NaN as well (Dijkstra, KD-tree, ...), or (b) for exact arithmetic (a commutative ring, a field,
  the reals) when the property is algebraic.  Which of the two is used is said at each property.  No
  theorem claims error bounds for floating-point evaluation.  Concrete executions in the files use Z or Q.
* Concurrency. The thread pool is a labelled transition system whose steps are the critical sections
  and the unlocked accesses of the C++ code; theorems are invariants over all its reachable states.

## 2. Trusted base

* Coq 8.16.1's kernel.  No axioms of our own.  Axioms of the standard library that `Print Assumptions`
  lists for the theorems are recorded in section 5.
* The fidelity of the Gallina transcription to the C++ text (citations at each definition).
* C++ standard library behaviour (vector, queue, priority_queue, sort, nth_element, string) is modelled
  by its specification: sort = any/stable sorted permutation, priority_queue = extract a maximal element.

## 3. Properties: model and method

| Id | Model files | What is modelled | Method |
|----|-------|-------|--------|
| C01-C02, C15 | Graph_* | adjacency-list graph, mutators and factories as functions to `res` | invariant by induction over operation histories, refinement to a finite edge map |
| C03 | GraphAlg_Bfs | queue-based BFS | queue invariant (two-level), induction on steps |
| C04 | GraphAlg_Dfs, GraphAlg_Visit | stack-based DFS | visited/stack invariant |
| C05-C06 | GraphAlg_Dijkstra, GraphAlg_Float | Dijkstra with lazy priority queue over monotone inflationary addition | settled-set invariant; IEEE binary64 shown to meet the laws |
| C07 | GraphAlg_Bellman | Bellman-Ford | relaxation invariants, cycle summation |
| C08 | GraphAlg_Topo | Kahn | in-degree invariant, pigeonhole gives a cycle |
| C09 | GraphAlg_Comp | repeated BFS | labelled-set invariant |
| C10 | GraphAlg_UnionFind | union-find | forest with rank measure, equivalence closure |
| C11-C12 | GraphAlg_Kruskal, GraphAlg_Prim | Kruskal, Prim | cut/exchange argument |
| C13-C14 | GraphAlg_TravProps, GraphMat_* | path reconstruction, graph matrices | induction |
| C16-C19 | Pool_* | thread-pool transition system, all interleavings | inductive invariants, progress measure |
| C20-C22 | IO_* | byte-list codecs | decode(encode m) = m for arbitrary element codecs; counterexamples for truncated input |
| C23-C26, C48 | Data_*, Json_* | CSV splitter, JSON reader, type inference, datasets | structural induction on text |
| C27, C46 | Interval_* | interval operations, covering | case analysis over end-point kinds, order reasoning |
| C28-C31 | Poly_* | polynomials over ring/field | ring induction |
| C32, C44 | Mat_* | row-major matrices with bounds-checked flat storage | index arithmetic, big sums |
| C33-C37, C45 | Gauss_*, LU_*, Det, Chol_*, Band_* | elimination algorithms on flat storage | loop invariants over a field |
| C49 | Tri_* | tridiagonal storage and Thomas solver | loop invariants |
| C38-C40, C47 | RootFind_* | root finders over the reals, function as parameter | loop invariants and the intermediate value theorem |
| C41 | Kd_* | KD-tree, nth_element by its postcondition | induction on the tree, order laws only |
| C42-C43 | Geom_*, Hull_*, Clip_* | monotone chain, Sutherland-Hodgman over the reals | stack invariants |
| C50-C53 | Interp_* | table search, linear, Neville, cubic spline, Floater-Hormann interpolation | invariants of the search and of the tableau; limits for smoothness |
| C54-C57 | Fourier_* | DFT, radix-2 FFT, real FFT, DCT-II/III, DST-I, size helpers | roots of unity and their orthogonality; induction on the block size for the butterfly stages and on the bit count for the permutation; exact reals with cos, sin, pi of the standard library |
| C58-C61 | Stat_* | means, moments, order statistics, covariance, Pearson, ranks, Spearman, Kendall | running sums as functional loop invariants; std::sort as the sorted permutation; Cauchy-Schwarz with its equality case; counting along the sorted list for ranks, over all pairs for Kendall; exact reals with ln and exp of the standard library |
| C62-C64 | Opt_* | bracketing, golden section, Brent with and without derivatives | ordering and descent invariants of the loops; the minimiser of a unimodal function never leaves the interval; golden section shrinks by 0.62 every four steps, Brent by a fixed length every step; exact reals |
| C65-C68 | Quat_* | quaternions: ring operations, rotation, matrices, axis-angle, Euler angles, slerp; vectors of space | polynomial identities modulo the unit-length equation; orthonormality gives the cofactor identities that make each branch of the matrix conversion exact; trigonometric round trips on their ranges; exact reals |
| C69-C73 | Integ_* | trapezoidal, Simpson and Romberg integration, Gauss-Legendre with ten points, Gauss-Kronrod 15/21/31 with their tables, adaptive Gauss-Kronrod | loop invariants identify every level with the composite rule; error bounds by monotonicity of auxiliary functions; Euler-Maclaurin for polynomials plus uniqueness of interpolation; moments of the tables in exact integer arithmetic; induction on the bisection tree |
| C74-C78 | ODE_* | the solution container, the fixed-step solver, nine step calculators with their tableaus | loop invariants over the container; the stages of each calculator identified with its tableau; order conditions by enumeration of all plane trees with their weights, exact rationals and integer balls; Gronwall for convergence; algebra for Verlet |
| C79, C80 | ODEA_* | the Dormand-Prince 5 and Cash-Karp adaptive steppers, the adaptive integrator with output at intervals or given times | the retry loop by induction over the fuel with the sizes tried so far; the integrator over any stepper that meets a specification, with the chain of accepted steps as ghost state |
| C81 | AD_* | dual numbers and all their functions, derivative, gradient | a logical relation between a dual number and a differentiable function, by induction over programs; calculus of the standard library |
| C82 | QR_* | the constructor and all public functions of QRSolver for a real element type | loop invariant over the rounds: columns not yet done are the product of the reflections so far with the columns of A; reflections are orthogonal involutions; the determinant of a rank-one update by row operations |
| C83 | Iter_Model.v models the three solvers, SolveOptimal, SolveSimple and EstimateOptimalOmega over the matrix model; Iter_Spec.v states the sweeps as equations. The loop returns the first iterate below the tolerance (induction). Diagonal dominance: a sweep contracts differences in the maximum norm (induction over the components updated), and the residual after a sweep is bounded by its moves. Positive definite: every update lowers the energy x'Ax/2 - b'x by a multiple of its square, and the energy is bounded below (induction on the size, completing the square), so some sweep moves little. |
| C84 | Deriv_Model.v models the nine difference rules with their error estimates, the Detailed, default-step, Left and Right variants and the Richardson tableau; Deriv_Spec.v names the order and constant of each rule. Deriv_Math.v proves Taylor's formula with a bounded remainder (induction on the order) and from it the error of any stencil whose moments vanish; each rule is shown to be such a stencil. Richardson: induction over the columns, entries stay close (amplification product) and, with an exact quadratic error, exact. |
| C85 | Cheb_Model.v models the whole class (constructors, Clenshaw evaluation, truncation, Derivative, Integral, ToPolynomial, FromPolynomial, MaxError) and the two point functions; Cheb_Spec.v defines T_k, U_k, the series and the nodes. Evaluation by the Clenshaw loop invariant; interpolation and polynomial exactness from the inversion of the cosine transform (Fourier_DCT.v) and closure of the span of T_0..T_{n-1}; derivative and integral by rewriting the series in U_k; ToPolynomial by running the Clenshaw invariant on polynomials. The error bound is Cauchy's interpolation remainder (Cheb_Err.v: Rolle for n+1 zeros by induction) with the node product identified as T_n/2^(n-1). |
| C86 | Cubic_Model.v models SolveQuadratic (both overloads), SolveCubic and SolveQuartic over a record with cosine, arc cosine, cube and square roots, with 0/0 as a missing root; Cubic_Spec.v states 'all roots with multiplicity' as the factorisation of the polynomial at every complex point. Quadratics from Vieta's relations, cubics from S^3+U^3=2R, SU=-Q and the cosines of three angles a third of a turn apart, the discriminant identity for the count, quartics by Ferrari's factorisation with U <> 0 derived from Q <> 0. |
| C87 | Fit_Model.v models LinearLeastSquares with its three branches, the detailed statistics and status, and the general and polynomial fits with the singular value decomposition as a parameter; Fit_Spec.v defines sums of squares. Loops by accumulation lemmas; optimality and uniqueness of the line from the normal equations and the Pythagorean identity of the residuals; the singularity test by rewriting the determinant as n times the spread; polynomials by identifying the design matrix with powers. |
| C88 | Eig_Model.v models MatrixSym storage, ComputeRotationAngle, ApplyRotation, OffDiagonalNorm, the sweep loop (fuel one more than the sweep limit, shown sufficient), SortEigenvalues and the overloads; Eig_Spec.v defines orthonormal columns, the residual of an eigenpair, the off-diagonal sum and eigenvalues. Eig_Math.v proves on functions that a rotation keeps A = V D V^T, both orthogonality relations, the trace and the Frobenius norm, and that the computed angle annihilates the entry, so each rotation lowers the off-diagonal sum by exactly its square; eigenvalue bound by Cauchy-Schwarz. Eig_Proofs.v: loop invariants; sorting as exchanges of indices. Convergence: every sweep either removes thr^2 or finds all entries below the threshold. |
| C89 | Coord_Model.v models the spherical, cylindrical, polar, rotation, Euler, orthogonal, oblique and Lorentz classes with their basis vectors, the metric tensor classes with SafeDivide, NDer4Partial with its scaled step and the inherited numerical methods for three coordinates; Coord_Spec.v defines partial derivatives, limits as the step shrinks, right-handed frames and the Minkowski product. The polar form of atan2 gives the round trips; the five-point rule is shown to tend to the derivative, and sums and products of limits give the numerical methods; inverses of axes follow from Cramer identities. |
| C90 | Ortho_Model.v models the basis classes (Evaluate, WeightFunction, Normalization, domain, RecurrenceCoefficients), the loops of the library's own Legendre, Hermite, Laguerre, associated and spherical functions, ChebyshevT and ChebyshevU, GetZeros, GetExtrema and ComputeCoefficient on bounded domains; Ortho_Spec.v defines improper integrals through primitives with limits at the bounds, orthogonality, recurrences, degree and Euler's integral. Ortho_Math.v proves that a three-term recurrence and the integrals of the single polynomials give orthogonality (Favard); Ortho_Fam.v finds primitives from the differential relations of each family, Ortho_Gauss.v proves the Gaussian integral (Coquelicot), Ortho_Cheb.v integrates in the angle; Ortho_Loops.v shows that the loops compute the recurrences. Not modelled: the std:: special functions, ComputeCoefficient on unbounded domains, FourierBasis. |
| C91 | Dist_Model.v models the constructors and pdf, cdf, inverseCdf, mean and variance of eight distributions; Dist_Spec.v says what a distribution, a quantile function and moments are, with the improper integrals of Ortho_Spec.v. Dist_Props.v proves from a distribution function with positive derivative and limits 0 and 1 that pdf integrates to 1, that cdf is its integral and that cdf is injective; moments are integrals by explicit primitives. Dist_Normal.v shows that an error function exists and is unique, takes its limits from the Gaussian integral, and gets the moments of the log-normal distribution by shifting mu. Dist_More.v adds the mean of the logistic distribution and, by substitution in the integral of Euler, the moments of the Weibull distribution. |

Every definition cites the file and lines it models.  What is **not** modelled, besides the rounding of
floating-point arithmetic:

* printing and visualisation (ConsolePrinter, Visualizer, MatrixPrintFormat, Serializer* text output, Timer);
* the text formats of MatrixIO/VectorIO (only the binary formats are modelled);
* error estimates that do not influence results (dy of Neville/rational interpolation), iteration diagnostics and
  wall-clock time in result structures;
* allocation failure and integer overflow of container sizes except where a theorem names the limit (C20);
* the parts of the library not named in the table above.

## 4. Findings (statements that are false of the code)

Each is a theorem with a witness, or for a whole class of inputs; the English property in properties.jsonl is amended
accordingly.  The text is the comment at the theorem.

* **C04** `C04_dfs_parent_not_tree_refuted` (GraphAlg_TravProps.v): the parent pointers are not those of the recursive depth-first tree: an explicit stack assigns the parent at push time.
* **C13** `C13_reconstruct_wrong_start_refuted` (GraphAlg_TravProps.v): With a start vertex other than the one the parents were computed from, the returned path need not begin at [start]; and on a cyclic array the function does not return.
* **C05** `C05_negative_edge_diverges` (GraphAlg_SpProps.v): The precondition is needed: one undirected edge of negative weight makes Dijkstra loop forever.
* **C09** `C09_directed_refuted` (GraphAlg_Comp.v): On a directed graph the classes are not the (weakly or strongly) connected components: the edge 1 -> 0 alone gives two classes.
* **C14** `C14_laplacian_selfloop_refuted` (GraphMat_Props.v): With a self loop the documented equation L = D - A is false: the diagonal entry of L is overwritten with the full degree.
* **C32** `C32_divide_assign_alias_refuted` (Mat_Props.v): The scalar of [*=] and [/=] is a reference: [m /= m(0,0)] uses the already divided entry for the rest of the matrix.
* **C32** `C32_scale_assign_alias_refuted` (Mat_Props.v): m *= m(0,0) takes the scalar by reference and reads it after the loop has overwritten it.
* **C17** `C17_wait_inside_task` (Pool_Props.v): wait_for_tasks called from inside a task never returns.
* **C33** `C33_zero_matrix_refuted` (Gauss_Props.v): the zero matrix is singular, yet Invert returns normally: the threshold eps * 0 * n is 0 and |pivot| < 0 is false (in C++ the result is then full of NaN)
* **C37** `C37_asymmetric_accepted_refuted` (Chol_Props.v): a matrix that is asymmetric within the tolerance is accepted and only one triangle is used, so the factors do not reproduce it.
* **C36** `C36_zero_matrix_refuted` (Band_Props.v): The property "a singular matrix is refused" fails for the zero matrix: the threshold is 0 and 0 < 0 is false, so the constructor returns a solver (whose Solve then divides by zero).
* **C36** `C36_wide_band_refuted` (Band_Props.v): A lower width larger than the dimension makes the constructor touch rows that do not exist.
* **C45** `C45_equal_complete_refuted` (Band_Props.v): IsEqualTo compares the storage, including the cells outside the matrix: two band matrices with the same entries can be unequal.
* **C28** `C28_empty_product_refuted` (Poly_Props.v): the product of two polynomials that hold no coefficient at all throws std::length_error, although both are documented to be the zero polynomial: "product is compatible with evaluation" fails there
* **C29** `C29_short_dividend_refuted` (Poly_Props.v): a dividend with fewer than d coefficients (degree below deg v - 1) makes poldiv read the remainder array out of bounds: "no undefined behaviour for any u and v" is false
* **C30** `C30_derive_empty_refuted` (Poly_Props.v): Derive on a polynomial without coefficients, or into an empty vector, is undefined behaviour
* **C27** `C27_difference_refuted` (Interval_Props.v): Difference keeps the shared end point of touching closed intervals, and drops the end points of a closed interval when the open interval with the same end points is removed
* **C27** `C27_union_refuted` (Interval_Props.v): Union with an unbounded interval drops the closed end point of the other side
* **C27** `C27_intersection_refuted` (Interval_Props.v): Intersection of two intervals unbounded below misses the most negative number
* **C27** `C27_intersects_refuted` (Interval_Props.v): intersects answers true for intervals that only touch at an excluded end point
* **C46** `C46_unbounded_refuted` (Interval_Props.v): for an interval unbounded below whose upper end lies under -10^10 the points are outside the interval
* **C39** `C39_bracket_false_refuted` (RootFind_Props.v): false does not mean that no bracket was found: the interval produced by the last expansion is not tested
* **C39** `C39_size_refuted` (RootFind_Props.v): the documentation says xb1 and xb2 are resized to the number of brackets; they never are
* **C40** `C40_ridders_sentinel_refuted` (RootFind_Props.v): FindRootRidders can report a "root" outside the bracket: the initial value -10^99 of the previous estimate
* **C40** `C40_ridders_root_refuted` (RootFind_Props.v): for a continuous function with a sign change Ridders can report convergence at a point where |f| > 1 and which is farther than 4 tol from every root.
* **C41** `C41_leaf_size_refuted` (Kd_Props.v): a leaf size below one never gets anywhere: the single-point list is split into nothing and itself
* **C41** `C41_brute_overflow_refuted` (Kd_Props.v): if every squared distance reaches the largest number, the brute-force search claims success without an index, where the tree reports failure
* **C42** `C42_tolerance_refuted` (Hull_Props.v): for a square of side 1e-6 and the tolerance 1e-10 on the cross product the hull keeps only two of the four corners.
* **C43** `C43_clockwise_refuted` (Clip_Props.v): the clip polygon must also be counter-clockwise, which the documentation ("must be convex!") does not say: a clockwise square around the subject clips it away
* **C43** `C43_union_refuted` (Clip_Props.v): PolygonUnionApprox ("exact for convex!"): the union of two disjoint squares contains a point of neither
* **C21** `C21_truncated_refuted` (IO_Props.v): C21 as one would expect it (success means that every element came from the file) is false: a file cut off after the header, or anywhere in the data, is loaded "successfully", with zeros -- or whatever the target held -- in place of the lost elements
* **C21** `C21_short_refuted` (IO_Props.v): and a file shorter than the header makes the loader decide on indeterminate values, which is undefined
* **C48** `C48_truncation_refuted` (Data_Infer.v): nine integers and the cell 3.7 make an integer column in which the cell is loaded as 3; also 12abc would be read as 12.
* **C48** `C48_range_refuted` (Data_Infer.v): integers outside the range of int make an integer column in which they are missing
* **C25** `C25_late_key_refuted` (Json_Refuted.v): a key that first occurs in a later object gives a column whose cells belong to the wrong rows.
* **C25** `C25_empty_object_refuted` (Json_Refuted.v): an empty object adds no row.
* **C25** `C25_duplicate_key_refuted` (Json_Refuted.v): a key repeated inside one object gives two rows.
* **C25** `C25_unicode_refuted` (Json_Refuted.v): unicode escapes are not decoded: the escape for A is loaded as the text u0041.
* **C49** `C49_unchecked_refuted` (Tri_Props.v): the list constructor accepts dimension 1 and then reads past the end of the list; a right-hand side that is too short and an index outside the matrix are read out of bounds
* **C50** `C50_descending_refuted` (Interp_Linear.v): a descending table is accepted, but without extrapolation every value inside its range is 0
* **C50** `C50_short_y_refuted` (Interp_Linear.v): the sizes of x and y are not compared: a short y is read beyond its end
* **C52** `C52_descending_refuted` (Interp_Spline.v): a descending table is accepted, but then Integrate refuses every interval
* **C53** `C53_short_y_refuted` (Interp_Bary.v): Unequal lengths are not refused: with fewer ordinates than abscissae, evaluation reads past the end of the ordinates.
* **C53** `C53_degree1_linear_refuted` (Interp_Bary.v): "d=1: piecewise linear (order 1)": on the table (0,0),(1,1),(2,0) the value at 1/2 is 3/4, off the chord.
* **C53** `C53_degree0_constant_refuted` (Interp_Bary.v): "d=0: piecewise constant": on the table (0,0),(1,1) the values at 1/4 and 1/2 are 1/4 and 1/2.
* **C55** `C55_next_power_overflow_refuted` (Fourier_Props.v): For every int above 2^30 NextPowerOfTwo, and with it ZeroPad, runs into signed overflow.
* **C58** `C58_variance_single_refuted` (Stat_Mean.v): One value is accepted by Variance and StdDev although the sample variance needs two: whatever the arithmetic, the result is a quotient whose divisor is the number 0 (NaN in floating point).
* **C61** `C61_close_values_refuted` (Stat_Props.v): Ties are recognised with an absolute tolerance of 1e-14, so ranks do not depend on the order of the values alone: the distinct values 0, 6e-15 and 12e-15 get the ranks 1.5, 1.5 and 3, and the same data multiplied by 10 get 1, 2, 3.
* **C62** `C62_equal_bounds_refuted` (Opt_Proofs.v): Equal starting points are not refused: for every function the "valid" bracket is three copies of the point.
* **C62** `C62_strict_refuted` (Opt_Proofs.v): The documented strict inequality fb < min(fa, fc) fails: on a constant function the result is valid with three equal values.
* **C63** `C63_golden_zero_refuted` (Opt_Proofs.v): When the minimiser is 0 the search never stops: the stopping test is relative to |x1| + |x2| with no absolute term, so no number of iterations is enough (golden section has no iteration limit). In floating point it runs until the points underflow or coincide.
* **C64** `C64_deriv_outside_refuted` (Opt_Brent.v): The variant with derivatives can leave the bracket: near an end the minimum step [tol1] is taken even when it crosses the end, and the point outside is returned as the minimum. Here the bracket is (0, 9, 10), the function is a cubic, and the result is beyond 10.
* **C65** `C65_small_refuted` (Quat_Proofs.v): Non-zero quaternions are refused: the thresholds are absolute, so a quaternion of length 1e-7 has no inverse although 1e7 of it does.
* **C67** `C67_small_angle_refuted` (Quat_Conv.v): Small rotations lose their axis: [isIdentity]'s tolerance 1e-6 is used to decide that there is no axis, so a rotation by 1e-6 about x is reported as one about z.
* **C67** `C67_gimbal_refuted` (Quat_Euler.v): At a pitch of a quarter turn both atan2 calls are given (0, 0): yaw and roll come out 0 and the rotation is lost.
* **C68** `C68_antiparallel_refuted` (Quat_Props.v): Opposite vectors lie on one line but are not reported parallel, because the test compares the unit vectors and not their directions up to sign.
* **C69** `C69_converged_means_close_refuted` (Integ_Props.v): "converged with error estimate e means that the integral is within e (or any fixed tolerance) of the value": false. For sin^2(128 pi x) on [0, 1] every rule up to 64 panels gives 0, so the loop reports convergence to 0 with error estimate 0 for every positive tolerance, while the integral is 1/2.
* **C69** `C69_unconverged_estimate_refuted` (Integ_Props.v): "the error estimate of a result that did not converge measures its error": false. The two values compared after the loop are the same, so the estimate is always 0; here the value is not the integral.
* **C69** `C69_no_steps_refuted` (Integ_Props.v): "with no steps allowed the call fails in a defined way": false, an uninitialised variable is returned
* **C70** `C70_single_step_refuted` (Integ_Props.v): "one step gives at least the trapezoidal value": false. With a single step the value is 4/3 of the trapezoidal sum, wrong even for a constant.
* **C71** `C71_few_steps_refuted` (Integ_Props.v): "fewer steps than points still give an estimate": false, the value 0 is returned (not converged, error estimate 0)
* **C74** `C74_fill_refuted` (ODE_Props.v): An index two or more past the room of the container is not an error: the container grows once, by half, and the value is then stored outside it (undefined behaviour).
* **C74** `C74_values_refuted` (ODE_Props.v): getXValues(component) and getTValues return the whole room of the container, not the saved points: after 2 points in a container for 4 the list ends with two zeros that were never saved.
* **C75** `C75_steps_refuted` (ODE_Props.v): A hundred thousand steps are refused: the matrix of saved states must not have more than 100000 columns.
* **C78** `C78_euler_cromer_refuted` (ODE_Props.v): The calculator called Euler-Cromer is not the semi-implicit Euler method (v' = v + h a(q), q' = q + h v'), which keeps the energy of an oscillator bounded: it is Heun's method, and the energy grows without end.
* **C78** `C78_odd_refuted` (ODE_Props.v): With an odd number of variables Velocity Verlet and leapfrog never compute the last one: it keeps what the output vector held before, and in an integration it becomes 0 after the first step.
* **C79** `C79_stale_derivative_refuted` (ODEA_Props.v): "a step depends only on the time, the state, the derivative and the size passed": after an accepted step the Dormand-Prince stepper ignores the derivative passed and uses its stored last stage, so that a second step from a different state is wrong unless resetFSAL is called (here x' = 3t² from 0 to 1, taken twice: the second time the slope at 0 is taken to be the one at 1)
* **C80** `C80_skip_refuted` (ODEA_Props.v): "every multiple of the output interval up to the end is saved": an output time that falls just after the end of a step (by at most 2^-52) is counted but neither saved with this step nor with the next; it is missing from the solution and the end point is saved twice
* **C80** `C80_backward_refuted` (ODEA_Props.v): "a solution returned is a solution of the equation": a backward integration (tEnd < t0, negative interval) takes no step at all and returns the initial state at the end time; here x' = 3t² from x(1) = 1 back to 0 gives x(0) = 1 instead of 0
* **C80** `C80_short_last_step_refuted` (ODEA_Props.v): "the step-size failure is raised only when the accuracy demands too small a step": the last step is cut to reach the end; the size proposed after it is compared with the minimum although no further step is needed, so that an error-free integration (x' = 0, every step accepted) throws
* **C80** `C80_repeated_time_refuted` (ODEA_Props.v): "output times may be given in any non-decreasing list": a repeated time stops the integration with an error (the step to it has size 0)
* **C81** `C81_abs_refuted` (AD_Props.v): "the derivative of |x| is sign(x)": at 0, where |x| has no derivative, abs returns derivative 1 (and for -x, -1) without any sign of trouble
* **C81** `C81_branch_refuted` (AD_Props.v): "the derivative returned is the derivative of the function computed": a function written with a special case at one point (x == 1 ? 1 : x x, which is x x for every x) gets the derivative of the special case at that point: 0 instead of 2
* **C81** `C81_atan2_refuted` (AD_Props.v): "atan2 is differentiated where it is differentiable": on the cut (second argument negative, first 0), where the angle jumps from -pi to pi, a finite derivative is returned
* **C82** `C82_small_entries_refuted` (QR_Props.v): The matrix with columns (2^-60, 0), (0, 1) is not singular, but its constructor flags it: Solve and inverse throw and det() returns 0
* **C82** `C82_zero_refuted` (QR_Props.v): The 1 x 1 zero matrix is not flagged singular (its threshold is 0): det() is 0 and Solve divides by 0
* **C83** `C83_jacobi_positive_definite_refuted` (Iter_Props.v): JacobiSolver documents convergence for symmetric positive definite matrices; on [5 4 4; 4 5 4; 4 4 5] x = (13, 13, 13) the iterates move away from the solution (1, 1, 1) by a factor 1.6 per sweep and no number of iterations suffices, for any tolerance up to 1.
* **C83** `C83_iterations_refuted` (Iter_Props.v): The result field "Number of iterations performed" is one too many whenever the solver did not converge: maxIter sweeps are reported as maxIter + 1 (here for every system, with the unreachable tolerance 0).
* **C83** `C83_optimal_1x1_refuted` (Iter_Props.v): SolveOptimal computes omega = 2 for a system with one unknown and always throws.
* **C83** `C83_small_diagonal_refuted` (Iter_Props.v): The threshold for the diagonal is absolute: the system 2^-53 x = b is rejected as singular by all three solvers.
* **C84** `C84_one_sided_order_refuted` (Deriv_Props.v): The rules NDer2Left ... NDer8Right are documented by the order of the central rule they call, but they return the derivative at a point moved by several steps, so they are only first order at x: for f(t) = t^2, differentiated exactly by all the central rules, NDerKLeft(f, x, h) is 2x - 2sh with s = 3, 4, 5, 6.
* **C84** `C84_default_step_refuted` (Deriv_Props.v): NDer2Left with the default step moves the point by two steps, NDer2Left with the same step given explicitly by three: the two overloads return different numbers for the same step.
* **C84** `C84_right_estimate_refuted` (Deriv_Props.v): NDer1Right with an error estimate also evaluates the function to the left of x: two functions that agree from x on get different error estimates (a function defined only from x on is called outside its domain).
* **C84** `C84_higher_estimate_refuted` (Deriv_Props.v): The error estimates of the second- and third-derivative rules divide the difference by too small a power of h: on t^(d+p), whose error is the leading term alone, they report less than the true error for every h <= 1/10.
* **C84** `C84_third_estimate_refuted` (Deriv_Props.v): The difference behind the error estimate of NThirdDer2 is not a fifth difference (weights 3 where 4 is meant): on f(t) = t, whose third derivative 0 is computed exactly, the reported error is at least 1 for every step.
* **C84** `C84_richardson_depth_refuted` (Deriv_Props.v): max_iter = 0 reads a[0][0] of an empty tableau, although the parameter is an unchecked int.
* **C85** `C85_derivative_truncated_refuted` (Cheb_Props.v): Derivative uses every stored coefficient: after SetNumTerms it is not the derivative of what the object evaluates to
* **C85** `C85_integral_exact_refuted` (Cheb_Props.v): Integral keeps as many coefficients as the series, so the top term of the antiderivative is lost: the integral of x on [-1, 1], with its two coefficients, is computed as 0 everywhere
* **C85** `C85_integral_constant_refuted` (Cheb_Props.v): Integral of an approximation with a single coefficient (a constant, so a legal object) reads _coef[-1]
* **C85** `C85_first_coefficient_refuted` (Cheb_Props.v): The class comment gives the approximation as the sum of c_j T_j; in fact the first coefficient counts half, also for coefficients supplied by the caller
* **C86** `C86_double_zero_refuted` (Cubic_Props.v): SolveQuadratic of a x^2 = 0 does not return the double root 0: the second root is 0/0
* **C86** `C86_small_coefficients_refuted` (Cubic_Props.v): the threshold is absolute: the equation (Eps/2) x^2 - Eps/2 = 0 has the roots 1 and -1, but the count is 0 and both returned roots are 0
* **C86** `C86_repeated_root_refuted` (Cubic_Props.v): the count of SolveCubic is not the number of real roots: x^3 - 3 x + 2 = (x - 1)^2 (x + 2) has only real roots, but the count is 1
* **C86** `C86_small_linear_refuted` (Cubic_Props.v): SolveQuartic drops a small linear term: for x^4 + Eps x every returned root is 0, although - cbrt Eps (about 6e-6 in double precision) is a root
* **C87** `C87_close_points_refuted` (Fit_Props.v): two points with different abscissas closer than 10 epsilon are not fitted: through (0, 0) and (Eps, 1) goes a line, but a horizontal one is returned
* **C87** `C87_far_points_refuted` (Fit_Props.v): different abscissas far from 0 are rejected as singular: (M, M + 1, M + 2) when Eps M^2 is large enough, for example 10^8 in double precision
* **C87** `C87_all_zero_refuted` (Fit_Props.v): abscissas that are all 0 are not rejected as singular: the coefficients are 0/0
* **C87** `C87_small_ordinates_refuted` (Fit_Props.v): R^2 = 1 does not mean a perfect fit: ordinates whose spread is below Eps get R^2 = 1 whatever their residuals, as for (0, u, 0) with small u
* **C87** `C87_negative_r2_refuted` (Fit_Props.v): R^2 of a general fit is not between 0 and 1: the best multiple of x for the data (1, 3), (2, 0) has residual 36/5 but the spread is 9/2, so R^2 = -3/5
* **C88** `C88_exact_refuted` (Eig_Props.v): the postcondition A V = V diag(lambda) of the documentation does not hold for converged results, whatever positive tolerance is used: [[0, u], [u, 0]] with u = tol is accepted as diagonal
* **C88** `C88_tolerance_refuted` (Eig_Props.v): a smaller tolerance and more sweeps do not always reach it: entries below the zero threshold are never rotated away, so a tolerance below them is never met
* **C88** `C88_nonsymmetric_refuted` (Eig_Props.v): a non-symmetric matrix is not rejected: for the quarter turn [[0, 1], [-1, 0]], which has no real eigenvalue, the solver converges with residual 0 and eigenvalues 0, 0
* **C89** `C89_origin_refuted` (Coord_Props.v): Nearer to the origin than 100 eps the polar angle is reported as 0: a point below the origin comes back above it.
* **C89** `C89_dual_refuted` (Coord_Props.v): getInverseBasisVec is documented as the contravariant (dual) basis; its scalar products with the basis are not the Kronecker delta.
* **C89** `C89_euler_refuted` (Coord_Props.v): The class is documented with the ZXZ convention (alpha about z, beta about x', gamma about z''); the matrix is that of ZYZ.
* **C89** `C89_unit_axes_refuted` (Coord_Props.v): Orthogonal axes that are not of unit length are accepted, and then transfInverse does not undo transf; even three zero vectors are accepted.
* **C89** `C89_tensor_refuted` (Coord_Props.v): transfTensor2 takes the derivatives of the inverse at the source coordinates instead of at the image point: the covariant metric of cylindrical coordinates at (1, 1, 0) should become the Cartesian one with component 1, the result tends to 3/4.
* **C90** `C90_chebyshev_recurrence_refuted` (Ortho_Props.v): The coefficients of ChebyshevBasis at n = 0 are those of the other indices, 2, 0, -1, and give 2 x for T_1 = x.
* **C90** `C90_phase_refuted` (Ortho_Props2.v): The standard's assoc_legendre, which the same name calls on other platforms, has no factor (-1)^m; the fallback, said to provide the same interface, differs from it in sign for odd m.
* **C90** `C90_assoc_basis_refuted` (Ortho_Props2.v): AssociatedLegendreBasis(m).Evaluate(l, x), documented as P_l^m(x), is the spherical function of the ANGLE x instead: for m = 0, l = 1 and x = 0 it is not P_1(0) = 0.
* **C90** `C90_chebyshev_coefficient_refuted` (Ortho_Props2.v): ComputeCoefficient with a ChebyshevBasis integrates up to the end points, where the weight is infinite and is replaced by 10^10: with the 20 steps of the default, the coefficient 0 of the constant 1, which is 1, comes out above 4000 for every tolerance.

## 5. Assumptions listed by `Print Assumptions`

All 643 theorems of MANIFEST.json, grouped by what `Print Assumptions` prints.  The axioms are those of the standard
library's real numbers (`ClassicalDedekindReals`, `FunctionalExtensionality`, `Classical_Prop.classic`); none is our own.

**No axioms (closed under the global context):** `C01_graph_is_edge_map`, `C01_spec_deterministic`, `C01_vertex_data`, `C02_throwing_mutators`, `C02_remove_undoes_add`, `C15_path_graph`, `C15_cycle_graph`, `C15_complete_graph`, `C15_star_graph`, `C15_grid_graph`, `C15_path_cycle_zero_throws`, `C03_bfs`, `C03_bfs_bad_start`, `C03_bfs_visit`, `C04_dfs`, `C04_dfs_visit`, `C04_dfs_parent_not_tree_refuted`, `C13_reconstruct_sound`, `C13_reconstruct_bfs`, `C13_reconstruct_dfs`, `C13_shortest_path_unweighted`, `C13_reconstruct_wrong_start_refuted`, `C05_dijkstra`, `C05_dijkstra_unreachable`, `C05_negative_edge_diverges`, `C06_dijkstra_path`, `C06_dijkstra_path_invalid`, `C06_agrees_with_dijkstra`, `C07_bellman_ford`, `C07_has_negative_cycle`, `C07_has_negative_cycle_bad_start`, `C08_topological_sort`, `C08_is_dag`, `C08_undirected`, `C09_connected_components`, `C09_is_connected`, `C09_directed_refuted`, `C10_union_find`, `C11_kruskal`, `C12_prim`, `C12_prim_kruskal_agree`, `C14_adjacency`, `C14_laplacian`, `C14_laplacian_selfloop_refuted`, `C32_operations`, `C32_product`, `C32_nonconforming`, `C32_additive_laws`, `C32_multiplicative_laws`, `C32_identity_trace`, `C32_divide_assign_alias_refuted`, `C32_scale_assign_alias_refuted`, `C16_ctor`, `C16_exactly_once`, `C16_destructor`, `C16_workers_live`, `C17_barrier`, `C17_wait_inside_task`, `C18_no_deadlock`, `C18_terminates`, `C18_eventually`, `C19_recorded`, `C19_take`, `C19_after_wait`, `C16_workers_live`, `C33_invert`, `C33_singular_throws`, `C33_not_square`, `C33_zero_matrix_refuted`, `C34_gauss_jordan`, `C34_singular_throws`, `C34_nonconforming`, `C34_vector`, `C35_constructor`, `C35_solve`, `C35_singular_throws`, `C35_bad_shape`, `C35_determinant`, `C35_solve_matrix`, `C35_solve_matrix_new`, `C35_inverse`, `C35_bad_rhs`, `C36_constructor`, `C36_solve`, `C36_bad_rhs`, `C36_singular_throws`, `C36_determinant`, `C36_solve_matrix`, `C36_bad_matrix_rhs`, `C36_zero_matrix_refuted`, `C36_wide_band_refuted`, `C45_element`, `C45_mul_vec`, `C45_mul_vec_bad`, `C45_full`, `C45_trace`, `C45_linear`, `C45_shape_mismatch`, `C45_transpose`, `C45_equal_sound`, `C45_equal_complete_refuted`, `C28_eval`, `C28_coefficients`, `C28_values`, `C28_reduce`, `C28_is_equal`, `C28_constructors`, `C28_accessors`, `C28_set_degree`, `C28_empty_product_refuted`, `C29_division`, `C29_zero_divisor`, `C29_short_dividend_refuted`, `C30_derivative`, `C30_rules`, `C30_derive`, `C30_derive_empty_refuted`, `C30_integral`, `C31_interpolates`, `C31_bad_input`, `C27_contains`, `C27_composite`, `C27_complement`, `C27_intersection`, `C27_union`, `C27_union_interior`, `C27_difference`, `C27_difference_interior`, `C27_bounds`, `C27_intersects`, `C27_difference_refuted`, `C27_union_refuted`, `C27_intersection_refuted`, `C27_intersects_refuted`, `C41_build`, `C41_nearest`, `C41_knearest`, `C41_radius`, `C41_box`, `C41_brute_force`, `C41_leaf_size_refuted`, `C41_brute_overflow_refuted`, `C42_hull_size`, `C42_tolerance_refuted`, `C43_clockwise_refuted`, `C43_union_refuted`, `C20_roundtrip`, `C20_limits`, `C21_any_file`, `C21_truncated_refuted`, `C21_short_refuted`, `C22_roundtrip`, `C22_any_file`, `C22_real_roundtrip`, `C23_split_join`, `C23_field_count`, `C23_trim`, `C23_bom`, `C24_string`, `C24_string_empty`, `C24_file`, `C24_file_empty`, `C24_agree`, `C24_write_read`, `C48_classify`, `C48_values`, `C48_regex`, `C48_sound`, `C48_uniform`, `C48_permutation`, `C48_integers`, `C48_truncation_refuted`, `C48_range_refuted`, `C25_aligned`, `C25_total`, `C25_write`, `C25_late_key_refuted`, `C25_empty_object_refuted`, `C25_duplicate_key_refuted`, `C25_unicode_refuted`, `C26_lookup`, `C26_filter`, `C26_filter_unknown`, `C26_select`, `C26_head_tail`, `C26_sample`, `C26_string_column`, `C26_typed_column`, `C44_at`, `C44_new`, `C44_bad_size`, `C44_of_rows`, `C44_of_list`, `C44_identity`, `C44_diagonal`, `C44_row_col`, `C44_triangles`, `C44_submatrix`, `C44_resize`, `C44_init`, `C44_swap`, `C44_equality`, `C49_get`, `C49_set`, `C49_new`, `C49_of_list`, `C49_arithmetic`, `C49_transpose`, `C49_solve`, `C49_solve_in_place`, `C49_unchecked_refuted`, `C50_locate_window`, `C50_locate`, `C50_bracket_unique`, `C50_new`, `C51_window`, `C51_reproduces`, `C53_bad_degree`, `C53_short_y_refuted`, `C53_degree1_linear_refuted`, `C53_degree0_constant_refuted`, `C55_bad_size`, `C55_is_power_of_two`, `C55_next_power_of_two`, `C55_next_power_overflow_refuted`, `C55_log2`, `C55_zero_pad`, `C56_bad_size`, `C57_errors`, `C58_empty`, `C58_variance_single_refuted`, `C61_close_values_refuted`, `C69_no_steps_refuted`, `C74_new`, `C74_reserve`, `C74_final`, `C74_fill`, `C74_set`, `C74_errors`, `C74_get`, `C74_sequence`, `C74_fill_refuted`, `C74_values_refuted`, `C78_odd_refuted`, `C79_stale_derivative_refuted`, `C80_skip_refuted`, `C80_backward_refuted`, `C80_short_last_step_refuted`, `C80_repeated_time_refuted`, `C88_storage`.

**`ClassicalDedekindReals.sig_forall_dec`, `FunctionalExtensionality.functional_extensionality_dep`:** `C30_analytic`, `C46_covering`, `C46_nothing`, `C46_unbounded_refuted`, `C39_brackets_complete`, `C42_integer_points`, `C49_dominant`, `C61_rank_order`, `C71_determined`, `C75_end`, `C76_quadrature`, `C76_linear`, `C78_reversible`, `C78_area`, `C80_all_points`.

**`ClassicalDedekindReals.sig_forall_dec`, `ClassicalDedekindReals.sig_not_dec`, `FunctionalExtensionality.functional_extensionality_dep`:** `C14_normalized_laplacian`, `C38_bisection`, `C38_near_root`, `C38_converges`, `C38_rejects`, `C39_bracket`, `C39_bracket_at_once`, `C39_bracket_bad`, `C39_brackets`, `C39_brackets_roots`, `C39_bracket_false_refuted`, `C39_size_refuted`, `C40_false_position`, `C40_ridders`, `C40_brent`, `C40_brent_near_root`, `C40_false_position_near_root`, `C40_rejects`, `C40_ridders_sentinel_refuted`, `C40_ridders_root_refuted`, `C47_newton`, `C47_secant`, `C47_rejects`, `C47_affine`, `C41_euclid`, `C42_convex`, `C42_contains`, `C42_half_planes`, `C42_not_collinear`, `C42_order_independent`, `C43_inside_clip`, `C43_inside_subject`, `C43_boundary`, `C43_keeps`, `C43_unchanged`, `C43_outside`, `C43_exact`, `C43_rect`, `C50_linear`, `C50_linear_between`, `C50_descending_refuted`, `C50_short_y_refuted`, `C51_nodes`, `C52_spline`, `C52_integrate`, `C52_descending_refuted`, `C53_blend`, `C53_interpolants`, `C53_reproduces`, `C53_full_degree`, `C53_continuous`, `C54_forward`, `C54_inverse`, `C54_round_trip`, `C54_real`, `C54_bin`, `C54_empty`, `C54_parseval`, `C55_fft_is_dft`, `C55_round_trip`, `C56_forward`, `C56_inverse`, `C56_round_trip`, `C56_round_trip_spectrum`, `C56_bad_spectrum`, `C56_packed_forward`, `C56_packed_round_trip`, `C57_forward`, `C57_inverse`, `C57_dct_round_trip`, `C57_dst`, `C62_bracket`, `C62_equal_bounds_refuted`, `C62_strict_refuted`, `C63_golden`, `C63_golden_accuracy`, `C63_golden_terminates`, `C63_golden_zero_refuted`, `C63_golden_ab`, `C63_golden_maximize`, `C63_golden_errors`, `C64_brent`, `C64_brent_accuracy`, `C64_brent_converges`, `C64_brent_errors`, `C64_brent_ab`, `C64_brent_maximize`, `C64_deriv`, `C64_deriv_accuracy`, `C64_deriv_outside_refuted`, `C69_loop`, `C69_reversed`, `C69_converged_means_close_refuted`, `C69_unconverged_estimate_refuted`, `C70_loop`, `C70_single_step_refuted`, `C71_loop`, `C71_few_steps_refuted`, `C72_gauss10_degree`, `C72_linear`, `C72_monotone`, `C72_odd`, `C73_partition`, `C73_tolerance`, `C73_sound`, `C75_integrate`, `C75_errors`, `C75_calculators`, `C75_steps_refuted`, `C76_euler`, `C76_heun`, `C76_midpoint`, `C76_rk4`, `C76_cash_karp`, `C76_dormand_prince5`, `C76_dormand_prince8`, `C76_euler_order`, `C76_heun_order`, `C76_midpoint_order`, `C76_rk4_order`, `C76_ck_order`, `C76_dp5_order`, `C76_dp8_order`, `C76_explicit`, `C76_row_sums`, `C76_dp8_row_sums`, `C76_fsal`, `C77_methods`, `C78_verlet`, `C78_leapfrog`, `C78_same`, `C78_energy`, `C78_euler_cromer_energy`, `C78_euler_cromer_refuted`, `C79_interpolant`, `C79_no_step_yet`, `C80_too_few_times`, `C81_arithmetic`, `C82_constructed`, `C82_factor`, `C82_orthogonal`, `C82_solve`, `C82_least_squares`, `C82_determinant`, `C82_inverse`, `C82_singular`, `C82_errors`, `C82_small_entries_refuted`, `C82_zero_refuted`, `C83_result`, `C83_dominant`, `C83_error_bound`, `C83_fixed_point`, `C83_estimate`, `C83_jacobi_positive_definite_refuted`, `C83_iterations_refuted`, `C83_optimal_1x1_refuted`, `C84_one_sided_samples`, `C84_steps`, `C84_one_sided_order_refuted`, `C84_default_step_refuted`, `C84_right_estimate_refuted`, `C84_higher_estimate_refuted`, `C84_third_estimate_refuted`, `C84_richardson_depth_refuted`, `C85_evaluate`, `C85_interpolates`, `C85_arguments`, `C85_polynomial_exact`, `C85_from_polynomial`, `C85_set_terms`, `C85_derivative`, `C85_integral`, `C85_to_polynomial`, `C85_max_error`, `C85_points`, `C85_derivative_truncated_refuted`, `C85_integral_exact_refuted`, `C85_integral_constant_refuted`, `C85_first_coefficient_refuted`, `C87_minimum`, `C87_outcome`, `C87_arguments`, `C87_exact`, `C87_statistics`, `C87_general`, `C87_general_arguments`, `C87_polynomial`, `C87_polynomial_arguments`, `C87_evaluate`, `C87_close_points_refuted`, `C87_far_points_refuted`, `C87_all_zero_refuted`, `C87_small_ordinates_refuted`, `C87_negative_r2_refuted`, `C90_legendre`, `C90_assoc_legendre`, `C90_assoc_laguerre_integer`, `C90_spherical`, `C90_zeros`, `C90_extrema`, `C90_second_kind_zeros`, `C90_chebyshev_recurrence_refuted`, `C90_phase_refuted`, `C90_assoc_basis_refuted`, `C90_chebyshev_coefficient_refuted`.

**`ClassicalDedekindReals.sig_forall_dec`, `ClassicalDedekindReals.sig_not_dec`, `Classical_Prop.classic`, `FunctionalExtensionality.functional_extensionality_dep`:** `C05_dijkstra_double`, `C37_constructor`, `C37_factor`, `C37_solve`, `C37_bad_input`, `C37_inverse`, `C37_logdet`, `C37_asymmetric_accepted_refuted`, `C41_double`, `C48_threshold_double`, `C50_error`, `C51_error`, `C51_error_bound`, `C58_mean`, `C58_mean_bounds`, `C58_variance`, `C58_variance_affine`, `C58_moments`, `C58_moments_constant`, `C58_weighted_mean`, `C58_weighted_mean_equal`, `C58_weighted_variance`, `C58_weighted_errors`, `C58_geometric_harmonic`, `C58_nonpositive`, `C59_median`, `C59_median_halves`, `C59_percentile`, `C59_percentile_monotone`, `C59_quartiles`, `C59_errors`, `C59_minmax`, `C59_mode`, `C59_trimmed_mean`, `C59_mad`, `C60_covariance`, `C60_covariance_linear`, `C60_pearson`, `C60_pearson_extreme`, `C60_pearson_affine`, `C60_errors`, `C60_pearson_test`, `C60_covariance_matrix`, `C60_correlation_matrix`, `C60_matrix_errors`, `C61_ranks`, `C61_spearman`, `C61_spearman_monotone`, `C61_spearman_no_ties`, `C61_kendall`, `C61_kendall_extreme`, `C61_errors`, `C62_minimum_inside`, `C65_ring`, `C65_norm`, `C65_inverse`, `C65_normalized`, `C65_small_refuted`, `C66_conjugation`, `C66_rotation`, `C66_compose`, `C66_double_cover`, `C66_matrix`, `C66_axis_angle`, `C66_euler`, `C67_from_matrix`, `C67_matrix_round_trip`, `C67_axis_angle`, `C67_small_angle_refuted`, `C67_euler`, `C67_gimbal_refuted`, `C67_slerp`, `C68_unit`, `C68_perpendicular`, `C68_angle`, `C68_parallel`, `C68_antiparallel_refuted`, `C69_accuracy`, `C69_affine`, `C70_accuracy`, `C70_cubic`, `C71_exact`, `C72_kronrod`, `C72_gauss10`, `C72_methods`, `C77_convergence`, `C79_dormand_prince`, `C79_cash_karp`, `C79_controllers`, `C80_initial_step`, `C80_integrate`, `C80_integrate_at`, `C81_forward`, `C81_derivative`, `C81_direction`, `C81_gradient`, `C81_abs_refuted`, `C81_branch_refuted`, `C81_atan2_refuted`, `C83_positive_definite`, `C83_errors`, `C83_optimal`, `C83_small_diagonal_refuted`, `C84_accuracy`, `C84_polynomial_exact`, `C84_leading_error`, `C84_error_estimate`, `C84_one_sided_accuracy`, `C84_richardson_bound`, `C84_richardson_exact`, `C85_terms`, `C85_error_bound`, `C85_truncate`, `C86_roots`, `C86_quadratic`, `C86_quadratic_complex`, `C86_cubic`, `C86_cubic_count`, `C86_quartic`, `C86_degenerate`, `C86_double_zero_refuted`, `C86_small_coefficients_refuted`, `C86_repeated_root_refuted`, `C86_small_linear_refuted`, `C88_outcome`, `C88_decomposition`, `C88_residual`, `C88_status`, `C88_eigenvalues`, `C88_converges`, `C88_two`, `C88_overloads`, `C88_exact_refuted`, `C88_tolerance_refuted`, `C88_nonsymmetric_refuted`, `C89_spherical`, `C89_cylindrical`, `C89_basis`, `C89_metric`, `C89_rotations`, `C89_axes`, `C89_lorentz`, `C89_numeric`, `C89_numeric_metrics`, `C89_numeric_exact`, `C89_origin_refuted`, `C89_dual_refuted`, `C89_euler_refuted`, `C89_unit_axes_refuted`, `C89_tensor_refuted`, `C90_integral_unique`, `C90_hermite`, `C90_prob_hermite`, `C90_laguerre`, `C90_assoc_laguerre`, `C90_chebyshev`, `C90_refuses`, `C90_recurrence`, `C90_degree`, `C90_prob_hermite_monic`, `C90_wavefunction`, `C90_gamma`, `C90_legendre_coefficient`, `C91_uniform`, `C91_exponential`, `C91_logistic`, `C91_logistic_mean`, `C91_cauchy`, `C91_weibull`, `C91_weibull_moments`, `C91_pareto`, `C91_normal`, `C91_lognormal`, `C91_normal_quantile_defined`.

