{"id": "C01", "title": "A feasibility answer is the oracle's own answer", "statement": "cutting_plane_feas returns (Some(x), k) exactly when the (k+1)-th oracle query answered None; x is the centre that was queried and is also the centre of the space handed back; every earlier query answered with a cut that was applied with update_bias_cut, gave Success and left tsq not below the tolerance.", "quantifier": "every oracle, every search space (any implementation of the two traits, with any internal state), every number type including f64 with NaN, every max_iters and tolerance", "why_tests_cant": "a test drives one oracle and one space; the claim is about every oracle/space history", "anchors": ["src/cutting_plane.rs: cutting_plane_feas, OracleFeas, SearchSpace"]}
{"id": "C02", "title": "Why cutting_plane_feas gave up, and how often it asked", "statement": "If cutting_plane_feas returns (None, k) with k < max_iters then the (k+1)-th cut was applied and either its status was not Success or tsq is below the tolerance; if k = max_iters then exactly max_iters cuts were applied, all Success. The oracle is called min(k+1, max_iters) times, in particular never when max_iters = 0.", "quantifier": "every oracle, space, options", "why_tests_cant": "needs all histories of an arbitrary stateful oracle", "anchors": ["src/cutting_plane.rs: cutting_plane_feas"]}
{"id": "C03", "title": "cutting_plane_optim returns the point of the last improvement", "statement": "The returned x_best is the centre that was queried at the last query reporting an improvement, and None iff no query reported one; the iteration in which an improvement is reported uses the central cut and every other iteration the bias cut; the reported count says why the loop ended.", "quantifier": "every oracle, space, starting gamma and options", "why_tests_cant": "needs all histories of an arbitrary stateful oracle", "anchors": ["src/cutting_plane.rs: cutting_plane_optim, OracleOptim"]}
{"id": "C04", "title": "gamma and x_best stay paired", "statement": "For any oracle that writes gamma only when it reports an improvement, and then writes the objective value f(x) of the queried point with f(x) better than the old gamma, cutting_plane_optim ends with gamma equal to the start value and no x_best, or gamma = f(x_best); no later improvement is lost and gamma never gets worse.", "quantifier": "every such oracle, every preorder of 'better', every space and options", "why_tests_cant": "an invariant over unbounded runs", "anchors": ["src/cutting_plane.rs: cutting_plane_optim"]}
{"id": "C05", "title": "Retry protocol of cutting_plane_optim_q", "statement": "In cutting_plane_optim_q the oracle is told retry = true exactly when the previous update of the space had no effect and the oracle had announced more alternatives (an Unknown status leaves the flag as the oracle's improvement report left it); the first query is told false; a NoEffect without alternatives, a NoSoln, or a tsq below tolerance ends the run at that iteration; x_best is the discrete point delivered with the last improvement.", "quantifier": "every quantised oracle, space, options", "why_tests_cant": "protocol over arbitrary interleavings of statuses and oracle answers", "anchors": ["src/cutting_plane.rs: cutting_plane_optim_q, OracleOptimQ"]}
{"id": "C06", "title": "A probe of BSearchAdaptor does not consume the search space", "statement": "BSearchAdaptor::assess_bs(gamma) runs the feasibility search on a copy: afterwards the stored space is unchanged except that, exactly when it returns true, its centre is the feasible point found; the oracle was told gamma before its first query; the answer is true iff the search on the copy found a feasible point.", "quantifier": "every oracle, space, options, gamma and sequence of probes", "why_tests_cant": "state leakage between probes depends on the whole history", "anchors": ["src/cutting_plane.rs: BSearchAdaptor::assess_bs"]}
{"id": "C07", "title": "bsearch brackets the threshold", "statement": "For an oracle that is feasible exactly at gamma >= t, bsearch on [lower, upper] with lower < t <= upper probes only inside the bracket, halves the bracket at every probe, and ends with a bracket that still contains t and has half-width below the tolerance unless max_iters was reached; the number of probes is the least k with (upper-lower)/2^(k+1) < tolerance, or max_iters; the flag is true iff some probe was feasible.", "quantifier": "every threshold, interval, tolerance, max_iters over the reals", "why_tests_cant": "the halving invariant is over unbounded runs and all thresholds", "anchors": ["src/cutting_plane.rs: bsearch, OracleBS"]}
{"id": "C08", "title": "bsearch reports nothing through its interval argument", "statement": "bsearch takes the interval by mutable reference but never writes it: after any call the caller's interval is what it was, although the bracket found can be far smaller. bsearch panics exactly when lower <= upper is false (so also for NaN).", "quantifier": "every oracle, interval, options", "why_tests_cant": "absence of a write on every path", "anchors": ["src/cutting_plane.rs: bsearch"]}
{"id": "C09", "title": "bsearch probes stay inside the interval in f64", "statement": "In IEEE binary64 with round-to-nearest-even every probed gamma lies in [lower, upper] whenever lower and upper are finite and upper - lower does not overflow; without the overflow condition this is false: on (-f64::MAX, f64::MAX) the first probe is +infinity.", "quantifier": "all pairs of finite doubles, all oracles, all run lengths", "why_tests_cant": "2^128 intervals; rounding corner cases", "anchors": ["src/cutting_plane.rs: bsearch"]}
{"id": "C10", "title": "A deep cut never loses a feasible point", "statement": "Ell::update_bias_cut with SingleCut(beta) on an ellipsoid of half-width tau along the gradient, for -tau/n <= beta < tau: every point of the old ellipsoid with g.(x - xc) + beta <= 0 is in the new ellipsoid.", "quantifier": "every dimension n >= 2, symmetric positive semidefinite shape, gradient with nonzero width, centre, kappa >= 0, beta in range (real arithmetic)", "why_tests_cant": "a statement about all points of a continuum of ellipsoids", "anchors": ["src/ell.rs: Ell::update_core, update_bias_cut", "src/ell_calc.rs: calc_bias_cut, calc_bias_cut_fast"]}
{"id": "C11", "title": "When a rejected single cut really means there is no solution", "statement": "If update_bias_cut with SingleCut(beta), beta >= 0, answers NoSoln then no point of the ellipsoid satisfies g.(x - xc) + beta <= 0. For beta < -tau it also answers NoSoln although every point of the ellipsoid satisfies the cut, and for -tau < beta < -tau/n it answers Success but drops feasible points.", "quantifier": "every ellipsoid, gradient and beta; witnesses for the two failures", "why_tests_cant": "soundness of the status for all inputs", "anchors": ["src/ell_calc.rs: calc_bias_cut", "src/ell.rs: update_bias_cut"]}
{"id": "C12", "title": "The quantised single cut is sound for every beta", "statement": "update_q with SingleCut(beta): NoSoln implies no point of the ellipsoid satisfies the cut; NoEffect leaves the ellipsoid as it is; Success keeps every point that satisfies the cut. This holds for every real beta.", "quantifier": "every ellipsoid, gradient of nonzero width, real beta", "why_tests_cant": "all inputs", "anchors": ["src/ell_calc.rs: calc_bias_cut_q", "src/ell.rs: update_q"]}
{"id": "C13", "title": "The central cut keeps the half ellipsoid", "statement": "update_central_cut with SingleCut always answers Success and every point of the old ellipsoid with g.(x - xc) <= 0 is in the new one, whatever beta is stored in the cut.", "quantifier": "every dimension n >= 2, ellipsoid, gradient of nonzero width", "why_tests_cant": "all points of all ellipsoids", "anchors": ["src/ell_calc.rs: calc_central_cut", "src/ell.rs: update_central_cut"]}
{"id": "C14", "title": "A parallel cut keeps the slab", "statement": "update_bias_cut and update_q with ParallelCut(beta0, Some(beta1)): with beta0 <= beta1 and tau^2 + n*beta0*beta1 >= 0 every point of the old ellipsoid with -beta1 <= g.(x - xc) <= -beta0 is in the new one (update_q: without the last condition). update_bias_cut does not check the condition, and outside it loses points of the slab.", "quantifier": "every ellipsoid of dimension n >= 2, gradient of nonzero width, beta0, beta1; witness for the failure", "why_tests_cant": "all points, all slabs", "anchors": ["src/ell_calc.rs: calc_parallel_bias_cut, calc_parallel_bias_cut_fast, calc_parallel_q", "src/ell.rs"]}
{"id": "C15", "title": "Statuses of parallel cuts are sound", "statement": "ParallelCut(beta0, Some(beta1)): an answer NoSoln from update_q means no point of the ellipsoid lies in the slab -beta1 <= g.(x-xc) <= -beta0, and NoEffect leaves the ellipsoid untouched. A slab that misses the ellipsoid on the far side (beta1 < -tau) is nevertheless answered Success.", "quantifier": "every ellipsoid, gradient, beta0, beta1; witness", "why_tests_cant": "all inputs", "anchors": ["src/ell_calc.rs: calc_parallel_q, calc_parallel_bias_cut"]}
{"id": "C16", "title": "The parallel central cut keeps the slab", "statement": "update_central_cut with ParallelCut(_, Some(beta1)), beta1 >= 0, keeps every point of the old ellipsoid with -beta1 <= g.(x - xc) <= 0; with beta1 < 0 it answers NoSoln and no point lies in that (empty) slab.", "quantifier": "every ellipsoid of dimension n >= 2, gradient of nonzero width, beta1", "why_tests_cant": "all points", "anchors": ["src/ell_calc.rs: calc_parallel_central_cut", "src/ell.rs: update_central_cut"]}
{"id": "C17", "title": "Every successful cut shrinks the ellipsoid", "statement": "det(kappa*M), the squared volume up to the unit-ball constant, is multiplied by delta^n (1 - sigma) by an update; it never grows for an admissible cut (single: -tau/n <= beta < tau; parallel: beta0 < beta1, -tau < beta1, beta0 < tau, tau^2 + n*beta0*beta1 >= 0), and a central cut, a deep cut beta >= 0 and a parallel cut beta0 >= 0 are answered Success and shrink it to at most exp(-1/(n+1)) times its value.", "quantifier": "every dimension n >= 2, every invertible shape matrix, every admissible cut", "why_tests_cant": "real inequality over a continuum", "anchors": ["src/ell_calc.rs", "src/ell.rs: update_core"]}
{"id": "C18", "title": "The two parallel formulas agree with each other and with their special cases", "statement": "calc_parallel_bias_cut_fast and calc_parallel_bias_cut_fast_old return the same (rho, sigma, delta); calc_parallel_central_cut(beta1) equals calc_parallel_bias_cut(0, beta1); a parallel cut whose far side touches the ellipsoid (beta1 = tau) equals the single cut; the central cut equals the bias cut at beta = 0.", "quantifier": "all real arguments in the documented range", "why_tests_cant": "algebraic identities over the reals, with square roots", "anchors": ["src/ell_calc.rs: EllCalcCore"]}
{"id": "C19", "title": "No division by zero and no square root of a negative number", "statement": "Evaluating a cut calculation and an ellipsoid update with tau^2 > 0, n >= 2 and admissible betas never divides by zero nor takes the square root of a negative number; tau^2 = 0 (zero gradient or degenerate ellipsoid) does divide by zero.", "quantifier": "all admissible inputs; witness for tau^2 = 0", "why_tests_cant": "absence of an exceptional event on all inputs", "anchors": ["src/ell_calc.rs", "src/ell.rs: update_core"]}
{"id": "C20", "title": "Dimension one is not supported by the cut formulas", "statement": "For n = 1 in f64 the constant n^2/(n^2-1) is +infinity: EllCalc::new(1) does not panic, a central cut on an ellipsoid with positive kappa answers Success, and afterwards kappa is +infinity and the tsq of every further cut is infinite or NaN, never a finite number.", "quantifier": "all one-dimensional ellipsoids with positive finite kappa, any matrix, centre and gradients (f64)", "why_tests_cant": "degenerate case of a formula, all inputs", "anchors": ["src/ell_calc.rs: EllCalcCore::new", "src/ell.rs: update_core"]}
{"id": "C21", "title": "A rejected cut does not move the ellipsoid", "statement": "When update_bias_cut, update_central_cut or update_q of Ell answers anything other than Success then centre, shape matrix, kappa and the no_defer_trick flag are bit-for-bit what they were; only tsq is set, to the width of the rejected cut.", "quantifier": "every ellipsoid (any f64 content, any shape for which the call does not panic), every cut", "why_tests_cant": "all paths of the update, bitwise", "anchors": ["src/ell.rs: update_core"]}
{"id": "C22", "title": "The shape matrix stays exactly symmetric", "statement": "After any successful update the stored matrix is symmetric bit for bit (in f64, including NaN and infinities: same stored entry), whatever the matrix was before; hence after any sequence of cuts with a symmetric start.", "quantifier": "every ellipsoid, cut, rounding behaviour (any number type)", "why_tests_cant": "rounding could break symmetry; needs all inputs", "anchors": ["src/ell.rs: update_core", "src/arr.rs: rank_one_update"]}
{"id": "C23", "title": "The ellipsoid stays an ellipsoid", "statement": "If the shape matrix is symmetric positive definite and kappa > 0 then it is again so after any single cut by update_bias_cut with -tau/n <= beta < tau, any central cut, any update_q single cut with beta < tau, and any update_q parallel cut with beta0 < beta1, beta1 > -tau, beta0 < tau (beyond those limits the slab misses the ellipsoid or only touches it).", "quantifier": "every dimension n >= 2, ellipsoid, nonzero gradient, admissible cut (real arithmetic)", "why_tests_cant": "invariant over unbounded sequences", "anchors": ["src/ell.rs: update_core", "src/ell_calc.rs"]}
{"id": "C24", "title": "tsq is the squared half-width", "statement": "After any update call tsq is kappa*g'Mg of the ellipsoid before the call, and its square root is the maximum of g.(x - xc) over that ellipsoid (attained, and no point exceeds it).", "quantifier": "every symmetric positive semidefinite shape, gradient", "why_tests_cant": "a supremum over a continuum", "anchors": ["src/ell.rs: update_core, tsq"]}
{"id": "C25", "title": "no_defer_trick is only a representation choice", "statement": "Running the same sequence of cuts with no_defer_trick on and off gives the same statuses, the same tsq, the same centres, the same kappa*M and the same sets of points, as long as no cut has zero width.", "quantifier": "every sequence of cuts of every length, every start ellipsoid (real arithmetic)", "why_tests_cant": "unbounded sequences", "anchors": ["src/ell.rs: update_core"]}
{"id": "C26", "title": "Updates of well-shaped ellipsoids do not panic, and constructors build the documented set", "statement": "An ellipsoid whose matrix is n x n and whose centre has length n accepts every cut whose gradient has length n without panicking and keeps that shape; new, new_with_scalar and new_with_matrix build the set {x | (x-xc)' M^-1 (x-xc) <= kappa} for M = diag(val), I, mq.", "quantifier": "every dimension (n >= 1), content and cut, any number type", "why_tests_cant": "panic freedom on all inputs", "anchors": ["src/ell.rs", "src/arr.rs"]}
{"id": "C27", "title": "No feasible point is ever lost during a run", "statement": "Run cutting_plane_feas on an Ell with an oracle whose cuts (beta >= 0, or parallel with beta0 >= 0) are satisfied by every point of a set K: K intersected with the initial ellipsoid is inside the final ellipsoid (unless the last gradient had width exactly zero); and if the run ends before max_iters without an answer and with tsq >= tolerance > 0, that is on a rejected cut, then K does not meet the initial ellipsoid.", "quantifier": "every K, every such oracle, every run length", "why_tests_cant": "localisation invariant over unbounded runs", "anchors": ["src/cutting_plane.rs: cutting_plane_feas", "src/ell.rs"]}
{"id": "C28", "title": "The feasibility search succeeds within the classical bound", "statement": "If K contains a ball of radius r inside the initial ellipsoid, cuts are valid with beta >= 0 (parallel: beta0 >= 0) and gradients of norm >= gmin, tolerance <= (r*gmin)^2, and max_iters exceeds (n+1)*ln(det(kappa M)/r^(2n)), then cutting_plane_feas on Ell does not panic and returns Some(x), a point the oracle accepted, after at most that many steps.", "quantifier": "every dimension n >= 2, K, oracle, starting ellipsoid (real arithmetic)", "why_tests_cant": "termination bound over all inputs", "anchors": ["src/cutting_plane.rs: cutting_plane_feas", "src/ell.rs", "src/ell_calc.rs"]}
{"id": "C29", "title": "The optimisation search reaches every value attained on a ball", "statement": "If the cuts keep every feasible point that beats the current gamma, and a ball of radius r inside the initial ellipsoid consists of points beating the initial gamma, then under the same bounds cutting_plane_optim on Ell does not panic and returns Some(x_best) with a gamma, set by the oracle at x_best, that some point of the ball does not beat. The tolerance may be bounded by the length of the gradients or, alternatively, by the margin rho by which the whole ball satisfies each cut (no assumption on gradients).", "quantifier": "every dimension n >= 2, objective, feasible set, oracle", "why_tests_cant": "convergence over all inputs", "anchors": ["src/cutting_plane.rs: cutting_plane_optim", "src/ell.rs"]}
{"id": "C30", "title": "EllStable reports the right width and size, but not the right shape", "statement": "Over the reals: tsq after any EllStable update is the squared half-width of the represented set along the gradient (attained on both sides); a successful single cut keeps the diagonal factor positive and scales its product (the determinant) by exactly 1 - sigma and kappa by delta. But the represented set is not the one Ell computes: after one central cut of the unit disc by (3,4) the sets differ, and from new_with_scalar no sequence of cuts ever makes the stored triangular factor anything but the identity, so the ellipsoid never rotates.", "quantifier": "every dimension, valid state, cut and sequence of cuts; witness for the difference", "why_tests_cant": "factored update correctness for all n", "anchors": ["src/ell_stable.rs: update_core"]}
{"id": "C31", "title": "EllStable follows Ell only for the first cut or along the axes", "statement": "From new or new_with_scalar, the first update of EllStable gives the same status, tsq, centre and kappa as Ell, for every cut; sequences of axis-aligned central cuts give identical observations. It fails beyond: a point of the unit disc satisfying the first cut (3,4) is excluded by the resulting ellipsoid, and for a state with a non-trivial factor describing the same set as an Ell, the same cut yields a different centre (back substitution reads scratch products instead of the factor).", "quantifier": "every dimension, start and cut; every sequence of axis-aligned central cuts; witnesses for the failures", "why_tests_cant": "needs a non-trivial factor, i.e. state after a cut", "anchors": ["src/ell_stable.rs: update_core lines 92-104"]}
{"id": "C32", "title": "A rejected cut leaves the ellipsoid of EllStable as it was", "statement": "When an EllStable update answers anything other than Success the represented ellipsoid (centre, factors, kappa) is unchanged although part of the buffer is overwritten: later updates behave bit-for-bit as if the rejected call had not happened.", "quantifier": "every state, cut, number type", "why_tests_cant": "buffer aliasing, all inputs", "anchors": ["src/ell_stable.rs: update_core"]}
{"id": "C33", "title": "EllStable::new_with_matrix with a non-diagonal matrix is not the documented ellipsoid", "statement": "new_with_matrix(kappa, mq, xc) represents the documented set {x | (x-xc)' mq^-1 (x-xc) <= kappa} when mq is diagonal; for a non-diagonal mq it does not.", "quantifier": "all diagonal matrices; witness for a non-diagonal one", "why_tests_cant": "all matrices", "anchors": ["src/ell_stable.rs: new_with_matrix, update_core"]}
{"id": "C34", "title": "Arr operations panic exactly on shape mismatch and keep shapes", "statement": "Binary operations, dot, dot_mv, outer, rank_one_update, copy_from, row, from_shape_vec panic exactly under their asserted conditions, and results have the documented shape; element access panics exactly when the flat index is out of range (in release builds: so get(i,j) with j >= cols can silently return an element of another row).", "quantifier": "all shapes, contents and indices, any number type", "why_tests_cant": "all shapes", "anchors": ["src/arr.rs"]}
{"id": "C35", "title": "Arr linear algebra computes what it says", "statement": "dot, dot_mv, outer, rank_one_update (on a symmetric matrix), eye, from_diag, row, copy_from, sum, map and the element-wise operations compute the mathematical result.", "quantifier": "all sizes and real contents", "why_tests_cant": "loops over all sizes", "anchors": ["src/arr.rs"]}
{"id": "C36", "title": "Dividing an Arr by a scalar is not element-wise division in f64", "statement": "a /= s multiplies by the rounded reciprocal. In real arithmetic this is division; in f64 it can differ from a[i] / s (49/49 gives a number below 1).", "quantifier": "all reals; f64 witness", "why_tests_cant": "rounding", "anchors": ["src/arr.rs: DivAssign<f64>"]}
{"id": "C37", "title": "linspace and arange", "statement": "linspace(a, b, n) has n points, starts at a, ends at b (n >= 2), is equally spaced; arange(a, b) has floor(b - a) points a, a+1, ... all below b, and is empty when b <= a.", "quantifier": "all reals and n", "why_tests_cant": "all sizes", "anchors": ["src/arr.rs: linspace, arange"]}
{"id": "C38", "title": "LDLTMgr::factor decides positive definiteness", "statement": "factor(A) returns true iff the symmetric matrix A is positive definite, for every size.", "quantifier": "all symmetric real matrices of all sizes", "why_tests_cant": "a decision procedure over a continuum", "anchors": ["src/oracles/ldlt_mgr.rs: factor, factorize, is_spd"]}
{"id": "C39", "title": "The witness certifies that the matrix is not positive definite", "statement": "If factor(A) returned false then witness() returns ep >= 0 and stores a vector whose restriction v to the reported block pos = (0, p+1) has v_p = 1 and v'Av = -ep, and sym_quad(F) returns v'Fv for every F; witness() panics exactly when the factorisation had succeeded.", "quantifier": "all symmetric real matrices of all sizes", "why_tests_cant": "all matrices", "anchors": ["src/oracles/ldlt_mgr.rs: witness, sym_quad"]}
{"id": "C40", "title": "LDLTMgr::sqrt returns a square root", "statement": "After a successful factor(A), sqrt() returns an upper triangular R with R'R = A; it panics exactly when the factorisation had failed.", "quantifier": "all positive definite matrices", "why_tests_cant": "all matrices and sizes", "anchors": ["src/oracles/ldlt_mgr.rs: sqrt"]}
{"id": "C41", "title": "The semidefinite factorisation is one-sided", "statement": "factor_with_allow_semidefinite(A) returns true for every positive semidefinite A, and when it returns false the witness proves v'Av < 0; but true does not mean positive semidefinite: [[0,15],[15,18]] is accepted although it has a negative eigenvalue.", "quantifier": "all symmetric matrices; witness", "why_tests_cant": "all matrices", "anchors": ["src/oracles/ldlt_mgr.rs: factor_with_allow_semidefinite"]}
{"id": "C42", "title": "Factorisation results do not depend on earlier calls", "statement": "The answer of factor, the witness vector and ep depend only on the matrix of the last call (reading only its lower triangle), not on what was factored before with the same manager; entries of the witness vector outside the reported block may be stale.", "quantifier": "all histories of calls, all matrices, any number type", "why_tests_cant": "history dependence", "anchors": ["src/oracles/ldlt_mgr.rs"]}
{"id": "C43", "title": "A matrix containing NaN is reported positive definite", "statement": "In f64 a pivot that is NaN is not caught by the test diag <= 0: a matrix whose entries are NaN makes factor return true, so an LMI oracle reports such a point feasible.", "quantifier": "f64 matrices; all sizes with NaN on the diagonal", "why_tests_cant": "special values in all positions", "anchors": ["src/oracles/ldlt_mgr.rs: factor", "src/oracles/lmi_oracle.rs"]}
{"id": "C44", "title": "The LMI oracle accepts exactly the positive definite points", "statement": "LMIOracle::assess_feas(x) returns None iff B - sum_k x_k F_k is positive definite.", "quantifier": "all symmetric F_k, B, x of all sizes", "why_tests_cant": "all inputs", "anchors": ["src/oracles/lmi_oracle.rs"]}
{"id": "C45", "title": "The LMI oracle's cut is valid and deep", "statement": "When LMIOracle::assess_feas(x) returns (g, beta) then beta >= 0, and every y with B - sum_k y_k F_k positive semidefinite satisfies g.(y - x) + beta <= 0.", "quantifier": "all symmetric F_k, B, x, y of all sizes", "why_tests_cant": "separation over a continuum", "anchors": ["src/oracles/lmi_oracle.rs"]}
{"id": "C46", "title": "LMIOldOracle and LMIOracle are the same function", "statement": "On every input and every call history both return bit-for-bit the same answer in f64.", "quantifier": "all F_k, B, x with matching shapes, any number type", "why_tests_cant": "bitwise equality on all inputs", "anchors": ["src/oracles/lmi_oracle.rs", "src/oracles/lmi_old_oracle.rs"]}
{"id": "C47", "title": "The homogeneous LMI oracle", "statement": "LMI0Oracle::assess_feas(x) returns None iff sum_k x_k F_k is positive definite; otherwise the returned (g, ep) has ep >= 0 and g.(y - x) + ep <= 0 for every y with sum_k y_k F_k positive semidefinite.", "quantifier": "all symmetric F_k, x, y", "why_tests_cant": "all inputs", "anchors": ["src/oracles/lmi0_oracle.rs"]}
{"id": "C48", "title": "The lowpass oracle never indexes out of range, except with an empty stop band", "statement": "For 0 <= wpass <= wstop < 1 the round-robin counters of LowpassOracle stay in range over every sequence of calls with vectors of the right length and no call panics; if the stop band is empty (nwstop >= number of frequencies) then assess_optim on a feasible point panics.", "quantifier": "all parameters, all call sequences", "why_tests_cant": "unbounded call histories of a stateful oracle", "anchors": ["src/oracles/lowpass_oracle.rs"]}
{"id": "C49", "title": "The lowpass oracle checks all constraints whatever its counters are", "statement": "assess_feas(x) returns None iff x satisfies every pass-band, stop-band and non-negativity constraint, independent of where the round-robin counters stand.", "quantifier": "all reachable counter states and points", "why_tests_cant": "counter states times points", "anchors": ["src/oracles/lowpass_oracle.rs: assess_feas"]}
{"id": "C50", "title": "Lowpass cuts are valid parallel cuts", "statement": "Every cut (g, (beta0, beta1)) returned by the lowpass oracle at x is satisfied by every filter meeting the specification: g.(y-x) + beta0 <= 0 and, when present, g.(y-x) + beta1 >= 0; and beta0 > 0 for feasibility cuts.", "quantifier": "all specifications, points x and filters y", "why_tests_cant": "all inputs", "anchors": ["src/oracles/lowpass_oracle.rs"]}
{"id": "C51", "title": "Lowpass optimisation reports the true stop-band level", "statement": "When assess_optim reports an improvement, the new sp_sq is the maximum of the stop-band response of x, is not above the old one, and the cut is valid for all filters with smaller stop-band level.", "quantifier": "all reachable states and points", "why_tests_cant": "all inputs", "anchors": ["src/oracles/lowpass_oracle.rs: assess_optim"]}
{"id": "C52", "title": "Profit oracle: round robin is exhaustive and cannot reach the unreachable arm", "statement": "For every call history the profit oracle's constraint index stays in -1..1, no call panics on two-dimensional input, and an improvement is reported only if both constraints hold at the queried point.", "quantifier": "all call histories, points, any number type", "why_tests_cant": "stateful oracle, unbounded histories", "anchors": ["src/oracles/profit_oracle.rs: ProfitOracle"]}
{"id": "C53", "title": "Profit oracle: cuts are valid", "statement": "For every gamma >= 0, every cut returned at y is satisfied by every point that is feasible and whose profit is at least gamma (log-sum-exp convexity); for negative gamma this is false: a fresh oracle can return a cut that excludes a feasible point with a larger profit than gamma.", "quantifier": "all parameters with a positive revenue factor and limit and non-negative prices, all points, all reachable oracle states", "why_tests_cant": "convexity over a continuum", "anchors": ["src/oracles/profit_oracle.rs"]}
{"id": "C54", "title": "Profit oracle: gamma is the profit of the reported point and never decreases", "statement": "At every level gamma except NaN (minus infinity included): an improvement is reported exactly if the point is feasible and its profit is at least gamma; then gamma becomes scale*price*prod(x^a) - sum(price_out*x) at x = exp(y), so it never decreases.", "quantifier": "all parameters and points", "why_tests_cant": "all inputs", "anchors": ["src/oracles/profit_oracle.rs: assess_optim"]}
{"id": "C55", "title": "Robust profit oracle uses the worst elasticities", "statement": "ProfitRbOracle evaluates y with the elasticities that minimise the revenue over the box of admissible elasticities: it is the profit oracle at the worst case, so feasibility for it implies feasibility for every admissible choice.", "quantifier": "all boxes, points, parameters", "why_tests_cant": "a minimum over a continuum", "anchors": ["src/oracles/profit_oracle.rs: ProfitRbOracle"]}
{"id": "C56", "title": "Quantised profit oracle evaluates integer points, but shifts the cut the wrong way", "statement": "Unless it returns a feasibility cut, ProfitOracleQ reports a point yd whose exponentials are positive integers (the nearest ones on a first try, the previous ones on a retry) and the cut it returns has beta = beta_d + g.(yd - y), where (g, beta_d) is a valid cut at yd. The shift that would keep the half space is beta_d + g.(y - yd): an integer point with a much better profit can be cut off.", "quantifier": "all points and histories", "why_tests_cant": "all inputs", "anchors": ["src/oracles/profit_oracle.rs: ProfitOracleQ"]}
{"id": "C57", "title": "The SVM oracle reports the minimum margin, but always as an improvement", "statement": "SvmOracle::assess_optim sets gamma to the minimum margin over the samples (0 if that is at least 1), and the half space through the queried point keeps every point with a minimum margin that is at least gamma. It reports an improvement on every call, so gamma and the best point of cutting_plane_optim can get worse from one iteration to the next; once all margins are at least 1 the gradient is zero and the search space becomes NaN.", "quantifier": "all data sets, points; witness for the regression", "why_tests_cant": "all inputs; history", "anchors": ["src/oracles/svm_oracle.rs"]}
{"id": "C58", "title": "The max-cut oracle evaluates the rounded cut", "statement": "MaxcutOracle::assess_optim computes the weight of the cut given by the signs of x, reports an improvement iff that is above gamma, and then gamma is that weight; otherwise gamma is unchanged; gamma never decreases.", "quantifier": "all weight matrices and points", "why_tests_cant": "all inputs and sizes", "anchors": ["src/oracles/maxcut_oracle.rs"]}
{"id": "C59", "title": "The max-cut oracle's cuts are not valid cuts", "statement": "There are weights and points x, y such that y has a better cut value than gamma but y violates the cut the oracle returns at x.", "quantifier": "witness", "why_tests_cant": "a counterexample is needed", "anchors": ["src/oracles/maxcut_oracle.rs"]}
{"id": "C60", "title": "Quasi-convex example oracle", "statement": "For every call history the constraint index stays in -1..1 and no call panics. With gamma >= 0: an improvement is reported iff x^2 <= log y and x >= gamma*y; the new gamma is then x/y and never below the old one; every cut is satisfied by every feasible point whose ratio is at least the new gamma. With gamma < 0 this fails: the cut of a fresh oracle can exclude a strictly better feasible point.", "quantifier": "all histories and points", "why_tests_cant": "all inputs", "anchors": ["src/quasicvx.rs: MyOracle"]}
{"id": "C61", "title": "Linear example oracles", "statement": "The example oracles report an improvement iff all constraints hold at the point, gamma becomes the objective value and never decreases, all cuts are valid, and the round-robin variant answers feasibility exactly like the sequential one whatever its counter.", "quantifier": "all histories and points", "why_tests_cant": "all inputs", "anchors": ["src/example1.rs", "src/example1_rr.rs", "src/example3.rs", "src/example4.rs"]}
{"id": "C62", "title": "Power iteration returns the Rayleigh quotient of a unit vector", "statement": "power_iteration and variants 2 and 4 return on every finite square matrix: x has unit length, the value is x'Ax, the count is at most max_iters and below it only if the variant's stated test passed in that round; the vector is the normalised A^k v of the first round in which the test passes. If A^max_iters v = 0 the vector and the value are NaN and the count is max_iters.", "quantifier": "all matrices, starts, options (real arithmetic)", "why_tests_cant": "all inputs", "anchors": ["src/power_iteration.rs"]}
{"id": "C63", "title": "power_iteration3 leaves x unnormalised when it runs out of iterations", "statement": "power_iteration3 normalises x when it converges, but not when it stops at max_iters, unlike the other variants; the value returned is the Rayleigh quotient in both cases.", "quantifier": "all inputs; witness", "why_tests_cant": "all inputs", "anchors": ["src/power_iteration.rs: power_iteration3"]}
{"id": "C64", "title": "Eigenvectors are fixed points of power iteration", "statement": "Started at an eigenvector with nonzero eigenvalue, every variant stops in its first iteration (tolerance >= 0) and returns that eigenvalue and the normalised eigenvector; so the documented 'dominant eigenvalue' is not guaranteed.", "quantifier": "all matrices and eigenvectors", "why_tests_cant": "all inputs", "anchors": ["src/power_iteration.rs"]}
{"id": "C65", "title": "Conjugate gradient answers are solutions", "statement": "If conjugate_gradient returns Ok(x) then |b - Ax| < tol, for every matrix A (symmetric or not), and the answer is the same for every larger max_iter. In general the result is the documented recurrence stopped at its first zero denominator (Err) or accepted residual (Ok). In binary64 the statement fails: the residual tracked by recurrence is not that of x.", "quantifier": "all A, b, x0, tol, max_iter (real arithmetic)", "why_tests_cant": "loop invariant over unbounded runs", "anchors": ["src/conjugate_gradient.rs"]}
{"id": "C66", "title": "Conjugate gradient terminates within n steps on positive definite systems", "statement": "If A is symmetric positive definite (or semidefinite and b in its range), tol > 0 and the start is not already exact, conjugate_gradient returns one and the same Ok(x) for every max_iter >= n. On invertible symmetric indefinite systems it may fail at once, which the documentation does not say.", "quantifier": "all n, A, b, x0", "why_tests_cant": "finite termination over all inputs", "anchors": ["src/conjugate_gradient.rs"]}
{"id": "C67", "title": "Conjugate gradient fails on an exact initial guess", "statement": "If b = A x0 (for instance b = 0 with the default guess), conjugate_gradient returns Err for every tol and max_iter although x0 is the solution.", "quantifier": "all such systems", "why_tests_cant": "all inputs", "anchors": ["src/conjugate_gradient.rs"]}
{"id": "C68", "title": "A feasibility run on EllStable can report no solution for a feasible problem", "statement": "cutting_plane_feas with an EllStable started on the unit disc answers None after one iteration for the constraints 3x+4y <= -1/8, x >= 3/4, although (3/4,-19/32) lies in the disc and satisfies both; with Ell the same call returns a solution.", "quantifier": "witness execution in f64", "why_tests_cant": "the crate's EllStable tests stop after one update; the wrong shape shows from the second on", "anchors": ["src/ell_stable.rs: update_core", "src/cutting_plane.rs: cutting_plane_feas"]}
{"id": "C69", "title": "A cut without effect fills EllStable with NaN", "statement": "A parallel bias cut answered Success with sigma = 0 (as in the crate's own test_update_parallel_no_effect) leaves xc and kappa unchanged but turns the stored factors into NaN; the next central update moves the centre to NaN.", "quantifier": "witness execution in f64", "why_tests_cant": "the crate's test looks only at xc and kappa", "anchors": ["src/ell_stable.rs: update_core, test_update_parallel_no_effect"]}
{"id": "C70", "title": "What the optimiser reports on the example oracles is feasible and gamma is its objective", "statement": "If cutting_plane_optim with example oracle 1, 1 (round robin) or 4 returns Some(x), then the constraint values of x as computed are all not positive and gamma on return is exactly the objective of x as computed, whatever the search space does.", "quantifier": "every number type including binary64, every search space, options, start and starting gamma", "why_tests_cant": "Tests run a handful of fixed starts with one search space; a stale x_best or gamma only shows in particular interleavings of improving and cutting steps.", "anchors": ["src/cutting_plane.rs", "src/example1.rs", "src/example1_rr.rs", "src/example4.rs"]}
{"id": "C71", "title": "The example filter problem of the repository has no solution", "statement": "create_lowpass_case(n) builds, in exact arithmetic, a specification whose lower pass-band bound (40/pi)^2 exceeds its upper bound (pi/40)^2 (the exponent sign of the lower bound is wrong); no filter meets it at any stop-band level, and cutting_plane_optim on any ellipsoid returns (None, 0) with gamma unchanged.", "quantifier": "all numbers of coefficients, all filters and levels, all ellipsoids and options", "why_tests_cant": "the test of the repository runs this problem and ignores the answer", "anchors": ["src/oracles/lowpass_oracle.rs: create_lowpass_case", "src/oracles/lowpass_oracle.rs: run_lowpass"]}
{"id": "C72", "title": "Variants 2 and 3 report the same value and count", "statement": "power_iteration2 and power_iteration3 on the same inputs return the same value and the same iteration count, whatever matrix, start, tolerance and limit; only the returned vector differs.", "quantifier": "all finite matrices, starts and options (real arithmetic)", "why_tests_cant": "relates two programs on all inputs", "anchors": ["src/power_iteration.rs: power_iteration2, power_iteration3"]}
{"id": "C73", "title": "Early stop means approximate eigenpair, for the direction test only", "statement": "When power_iteration stops before max_iters its unit vector x and value l satisfy |Ax - l x| <= |A|_F * tolerance; for power_iteration4 the bound has an extra factor sqrt n. For variants 2 and 3, whose test compares consecutive values, no bound holds: they may stop in the first round at tolerance 0 with a value that is no eigenvalue.", "quantifier": "all finite matrices (symmetric or not), starts and options; witness for the refutation", "why_tests_cant": "all inputs", "anchors": ["src/power_iteration.rs"]}
{"id": "C74", "title": "The value never falls below the start on positive semidefinite matrices", "statement": "On a symmetric positive semidefinite matrix every variant, however it stops, returns a value at least the Rayleigh quotient of the starting vector.", "quantifier": "all symmetric psd matrices, starts, options", "why_tests_cant": "all inputs", "anchors": ["src/power_iteration.rs"]}
{"id": "C75", "title": "Power iteration terminates and converges with a dominant eigenvalue", "statement": "If the start is an eigenvector for l plus a part on which powers of A grow strictly slower than |l|^k, then for every positive tolerance there is a bound on the count that holds for every larger max_iters, and the values reported after sufficiently many rounds are as close to l as desired.", "quantifier": "all matrices, starts, tolerances, limits", "why_tests_cant": "asymptotic statement", "anchors": ["src/power_iteration.rs"]}
{"id": "C76", "title": "Power iteration panics exactly on shape mismatch", "statement": "Each variant panics if and only if the matrix is not square (or has no columns) or the vector is not one-dimensional of matching length, whatever the values and options, in every arithmetic including NaN and infinities.", "quantifier": "all matrices, vectors, options, any arithmetic", "why_tests_cant": "all inputs", "anchors": ["src/power_iteration.rs", "src/arr.rs"]}
{"id": "C77", "title": "Conjugate gradient answers improve on the start", "statement": "On a symmetric positive semidefinite consistent system, an answer x has strictly smaller energy error (x-z)A(x-z) than the start, for every solution z.", "quantifier": "all n, A, b, x0, tol, max_iter", "why_tests_cant": "all inputs", "anchors": ["src/conjugate_gradient.rs"]}
{"id": "C78", "title": "Conjugate gradient answers are optimal over the Krylov space", "statement": "On a symmetric positive semidefinite consistent system, an answer x lies in x0 + span(r, Ar, ..., A^(k-1) r) for some 1 <= k <= max_iter, r the residual of the start, and no point of that set has smaller energy error.", "quantifier": "all n, A, b, x0, tol, max_iter", "why_tests_cant": "optimality over a continuum", "anchors": ["src/conjugate_gradient.rs"]}
{"id": "C79", "title": "Conjugate gradient panics exactly on misfitting shapes", "statement": "conjugate_gradient panics if and only if A has no columns, the start is not a 1-D array with as many entries as A has columns, b is not 1-D with as many entries as A has rows, or max_iter > 0 and A is not square; in any arithmetic, whatever the values.", "quantifier": "all arrays, any arithmetic", "why_tests_cant": "all inputs", "anchors": ["src/conjugate_gradient.rs", "src/arr.rs"]}
{"id": "C80", "title": "A run of the optimiser that stops on a rejected cut has proved optimality", "statement": "Run cutting_plane_optim on an Ell with an oracle whose cuts (beta >= 0, or parallel with beta0 >= 0) are satisfied by every point beating the returned gamma: every point of the initial ellipsoid beating the final gamma is in the final ellipsoid (unless the last gradient had width exactly zero); if the run ends before max_iters with tsq >= tolerance > 0, no point of the initial ellipsoid beats the final gamma.", "quantifier": "every dimension n >= 2, objective, feasible set, such oracle, start and run length (exact arithmetic)", "why_tests_cant": "invariant over unbounded runs and all oracles", "anchors": ["src/cutting_plane.rs: cutting_plane_optim", "src/ell.rs"]}
{"id": "C81", "title": "With default options the drivers solve the crate's example problems", "statement": "From Ell::new_with_scalar(val, [0, 0]) with default options, in exact arithmetic: cutting_plane_optim on examples 1 and 1 (round robin) returns a feasible x and gamma = objective(x) within 4e-10 of the optimum 3; on example 4 within 14e-10 of the optimum 12; cutting_plane_feas on example 3 returns a feasible point for every target at least 16e-10 above the least objective -8.", "quantifier": "all val in [20, 1e20], all starting gamma <= 2 (example 4: <= 11), all targets", "why_tests_cant": "tests run one start and one gamma each and check only that an answer exists", "anchors": ["src/cutting_plane.rs", "src/ell.rs", "src/example1.rs", "src/example1_rr.rs", "src/example3.rs", "src/example4.rs"]}
{"id": "C82", "title": "The LMI feasibility search finds a strictly feasible point or proves there is none", "statement": "With LMIOracle or LMIOldOracle for symmetric F_1..F_k, B on an Ell, in exact arithmetic: if cutting_plane_feas returns a point x, then B - sum x_i F_i is positive definite; if it gives up on a rejected cut (tsq at least the tolerance, before max_iters), no point of the starting ellipsoid makes the matrix positive semidefinite; and if some ball of radius r inside the starting ellipsoid is feasible and the matrix at its centre is at least rho times the identity, with tolerance <= rho^2, a strictly feasible point is returned within (k+1) ln(V0^2 / r^(2k)) iterations.", "quantifier": "all matrices of every size, all numbers of variables k >= 2, all starting ellipsoids, all options", "why_tests_cant": "the test runs one LMI problem and only checks that an answer is found", "anchors": ["src/oracles/lmi_oracle.rs", "src/oracles/lmi_old_oracle.rs", "src/cutting_plane.rs", "src/ell.rs"]}
{"id": "C83", "title": "The profit problem is solved to any accuracy by a whole run", "statement": "Run cutting_plane_optim with ProfitOracle on an Ell in exact arithmetic, starting from gamma >= 0. If u is a feasible point whose 2r-ball lies in the initial ellipsoid and whose profit exceeds gamma + (2(|a0|+|a1|)+6) r revenue(u), with tolerance <= r^2 and enough iterations, the run returns a feasible x with gamma = profit(x) > profit(u) - (2(|a0|+|a1|)+6) r revenue(u). A run that stops on a rejected cut has proved that no feasible point of the initial ellipsoid reaches gamma. On the data of the crate test (default options, Ell::new([val,val],[0,0])), the answer is within 1e-5 of the maximum over all positive x0 <= 30.5 and x1, and lies in (3399, 3406].", "quantifier": "every market with positive scale and limit, every start and options; test data: all val in [81, 1e20] and gamma in [0, 3399]", "why_tests_cant": "the test checks one run and only that the answer is feasible; optimality is a statement about all points and needs the infinite family of cuts", "anchors": ["src/oracles/profit_oracle.rs: ProfitOracle", "src/cutting_plane.rs: cutting_plane_optim", "src/ell.rs"]}
{"id": "C84", "title": "The robust profit problem is solved to any accuracy by a whole run", "statement": "Run cutting_plane_optim with ProfitRbOracle on an Ell in exact arithmetic, gamma >= 0: if some u guarantees the profit t under every market in the uncertainty box and its 2r-ball lies in the initial ellipsoid, the run returns an x that guarantees the final gamma under every market in the box, and gamma > t - (2A+6) r R, where A = sum(|a_i|+u_i) and R is the largest revenue at u. A run stopped by a rejected cut has proved that no point of the initial ellipsoid guarantees gamma. On the data of the crate test the answer is within 1e-5 of the best guaranteed profit over all points.", "quantifier": "every uncertainty box, start and options; test data: all val in [81, 1e20], gamma in [0, 2599]", "why_tests_cant": "the guarantee ranges over all markets in a box and all points", "anchors": ["src/oracles/profit_oracle.rs: ProfitRbOracle", "src/cutting_plane.rs: cutting_plane_optim", "src/ell.rs"]}
{"id": "C85", "title": "A discrete optimisation never loses a better design", "statement": "Run cutting_plane_optim_q on an Ell in exact arithmetic with an oracle whose cuts (single or parallel, shallow ones included) are satisfied by every admissible design beating the returned level. Unless the last gradient has zero width, every admissible design in the initial ellipsoid that beats the final gamma is in the final ellipsoid. If the oracle always offers an alternative cut, a run that stops before max_iters with tsq >= tolerance has proved that no design in the initial ellipsoid beats gamma. If the oracle may say that it has no alternative, that is false: the run also stops when a shallow cut has no effect, with better designs left.", "quantifier": "every oracle, dimension >= 2, valid ellipsoid, level, options", "why_tests_cant": "the claim is about all points of the ellipsoid, discrete sets of designs and all oracles; the crate has one test with one oracle", "anchors": ["src/cutting_plane.rs: cutting_plane_optim_q", "src/ell.rs: update_q", "src/ell_calc.rs: calc_bias_cut_q, calc_parallel_q"]}
{"id": "C86", "title": "Binary search over feasibility problems finds a nearly best point", "statement": "bsearch(BSearchAdaptor(oracle, Ell), (l, u)) in exact arithmetic: it returns, with the number of probes fixed by the interval and the tolerance alone; if from the level thr on a ball of solutions is inside the initial ellipsoid (also after its centre moved to an accepted point), then a true answer leaves in the stored space a point that the oracle accepts at a level <= max(l, thr) + (u-l)/2^k, and a false answer means u <= max(l, thr) + (u-l)/2^k. For MyOracle3 the point is feasible with objective at most 16r + (u-l)/2^k above the least value -8; with the data of the crate test the result is (true, 34) and the stored point is within 0.002 of the optimum.", "quantifier": "every oracle with valid cuts, interval, options; example 3: every radius, r, options, start index; test data: any start level", "why_tests_cant": "the test runs one search and checks only the flag and the count; the quality of the point left in the space is a statement about all feasible points", "anchors": ["src/cutting_plane.rs: bsearch, BSearchAdaptor::assess_bs, cutting_plane_feas", "src/example3.rs", "src/ell.rs: set_xc"]}
{"id": "C87", "title": "The portfolio example reports an admissible portfolio, but gives up at the first one that is not better", "statement": "PortfolioOracle of examples/portfolio_optimization.rs, for n expected returns and an n x n risk matrix: the answer at every x is exactly: the budget cut if the sum exceeds the budget, else the risk cut (value x^T Q x - max_risk, gradient (Q+Q^T) x) if the risk exceeds max_risk, else a central cut with gradient -returns and the new gamma = -returns.x if that improves, else a zero gradient with shrunk = false. A run with any search space and number type reports only a point that passed both tests, with gamma its computed objective. If Q is positive semidefinite, a run on an Ell in exact arithmetic never loses an admissible portfolio at least as good as the final gamma unless the last step has zero width. But that is what happens: from an admissible centre that does not improve gamma the run stops in that very iteration, whatever better portfolios remain; main of the example, in binary64, stops with objective above -0.02226 while the oracle itself accepts a portfolio with objective below -0.0262.", "quantifier": "every number of assets, data, point, level, options; runs: any space and number type, or every valid Ell in exact arithmetic; main: its own data in binary64", "why_tests_cant": "the claim is about all portfolios in the ellipsoid; the example prints its result as optimal and no test compares it with the optimum", "anchors": ["examples/portfolio_optimization.rs:23-95", "src/cutting_plane.rs", "src/ell.rs"]}
{"id": "C88", "title": "Minimising a sum of squares with the oracles of the tests converges, although each cut also removes better points", "statement": "The oracles of the tests that minimise f(x) = sum d_i (x_i - t_i)^2 return the gradient of f and the value f(x) as the depth of the cut, and lower gamma to f(x) when that improves. That depth is too large: at some point and level the cut removes a point with smaller f than gamma. It never removes a point with 4 f(y) <= gamma. So in exact arithmetic cutting_plane_optim on an Ell of dimension n >= 2 that contains the ball of radius r about the minimiser does not panic and, given more than (n+1) ln(vol^2/r^(2n)) iterations and a tolerance at most (8 M r^2)^2, returns a point x with gamma = f(x) < 4 M r^2 (M the largest weight). From the starts (1,1) and (-1,-1) of the integration test this gives gamma < 1.6e-5 within its 1000 iterations.", "quantifier": "every dimension, nonnegative weights, target, ellipsoid, options; exact arithmetic", "why_tests_cant": "the tests assert gamma < 10 or gamma < 100 after one run each; they cannot tell a valid cut from one that discards the optimum", "anchors": ["tests/integration_test.rs:171-220", "tests/regression_tests.rs", "tests/numerical_stability.rs", "src/cutting_plane.rs", "src/ell.rs"]}
{"id": "C89", "title": "Runs on cuts at or beyond the centre meet no division by zero, negative root or infinity", "statement": "In arithmetic with infinities and NaN (exact otherwise), start a driver on an Ell with finite data and let the oracle answer finite questions with finite answers. If every cut passes through or beyond the centre (offset >= 0, parallel cuts ordered and not crossing; for the discrete driver any single cut), the run of cutting_plane_feas, cutting_plane_optim, cutting_plane_optim_q or bsearch over a BSearchAdaptor gives the same answer, level and iteration count as the run in exact real arithmetic, and the ellipsoid left behind is the same finite one, unless the very last step had zero width. The oracles of examples 1, 1 round-robin, 3, 4, quasicvx and profit answer that way, and example 3 run from the origin with default options returns a feasible point.", "quantifier": "every dimension >= 2, oracle, finite ellipsoid, level, options with tolerance > 0", "why_tests_cant": "each test executes one sequence of cuts; a NaN that arises only for some sequences compares false everywhere and silently changes the control flow", "anchors": ["src/cutting_plane.rs", "src/ell.rs", "src/ell_calc.rs"]}
{"id": "C90", "title": "Starting an optimisation from an infinite level works", "statement": "The tests start cutting_plane_optim from gamma = -infinity (maximising) or +infinity (minimising). With infinities and NaN represented: if at each point the oracle answers the infinite level as it answers all sufficiently bad finite levels, then the run from the infinite level gives the same answer and iteration count as the runs from all sufficiently bad finite levels, and the final level is the finite one unless nothing was found. Hence examples 1, 1 round-robin and 4, started from the origin with any scalar in [20, 1e20], default options and gamma = -infinity, return a feasible point within 4e-10 (14e-10 for example 4) of the optimum, with gamma its objective value; the least-squares oracles of the tests started from +infinity converge with the bound of C88.", "quantifier": "every oracle with that property, ellipsoid, options; every initial scalar in [20, 1e20]", "why_tests_cant": "tests run one scalar and assert only that some point is found; infinity minus infinity or 0 times infinity would surface only on particular paths", "anchors": ["src/cutting_plane.rs:212-260", "src/example1.rs", "src/example1_rr.rs", "src/example4.rs", "tests/integration_test.rs", "tests/regression_tests.rs", "tests/numerical_stability.rs"]}
{"id": "C91", "title": "Rounding never makes kappa negative", "statement": "In binary64 arithmetic, an Ell of dimension 2 or more whose kappa is not negative keeps a kappa that is not negative (it may become NaN) through every update: central cuts and quantised single cuts without any condition on the cut, bias cuts through or beyond the centre (offset not negative, second offset of a parallel pair positive) provided tsq is not in the underflow range (below 2^-1000). Hence at the end of any run of the drivers with such an oracle and a tolerance of at least 2^-1000, kappa is not negative unless the run stopped because tsq fell below the tolerance; with the discrete driver and single cuts there is no condition at all. The constructors, the default tolerance and the oracles of the examples, the profit, portfolio and lowpass problems meet these conditions. Both restrictions are needed: with tsq in the underflow range a bias cut can report Success and leave a negative kappa, and in dimension one a pair of parallel cuts through the centre can leave kappa around -9e15.", "quantifier": "every dimension from 2 to 2^53, ellipsoid, gradient, cut, oracle, option value; every libm", "why_tests_cant": "the randomised checks of examples/quickcheck_tests.rs draw kappa and run one cut with one offset; a rounding error that turns kappa negative needs particular values, as the two counterexamples show", "anchors": ["src/ell.rs:82-138", "src/ell_calc.rs", "src/cutting_plane.rs", "examples/quickcheck_tests.rs:64-206"]}
{"id": "C92", "title": "Equality of arrays, full and from_fn, arithmetic with a scalar", "statement": "In binary64, == on Arr is symmetric and transitive; a == a holds exactly when no element is NaN; +0 and -0 compare equal although they are different values; arrays with the same data but different shape (vector versus n-by-1 matrix) are not equal. full(r, c, v) holds v at every position and from_fn(n, f) holds f(i) at i and panics beyond. a + s, a - s, a * s act element by element and keep the shape. Subtracting a scalar is adding its negative, addition of arrays of one shape commutes, and negating twice is the identity, all bit for bit in binary64. Ell::from_covariance(cov, xc) is the set of points with (x - xc)' cov^-1 (x - xc) <= 1.", "quantifier": "every array, scalar, shape and index", "why_tests_cant": "tests compare a few literal arrays; NaN, signed zeros and rounding are exactly the values they do not try", "anchors": ["src/arr.rs:33-39", "src/arr.rs:71-78", "src/arr.rs:200-240", "src/ell.rs:76-78"]}
{"id": "C93", "title": "Lowpass designs: the optimiser beats every filter that has room to spare", "statement": "LowpassOracle::new and Ell::new_with_scalar at the origin, followed by cutting_plane_optim, with any real parameters: if some filter z meets the pass-band, transition and stop-band bounds with stop-band level s and room d to spare (and fits in the start ball), and the iteration budget exceeds (n+1) n ln(4 n val / d^2), then the run reports a filter that meets the specification, whose largest stop-band response is the reported level, and that level is below s; cutting_plane_feas finds a filter meeting the oracle's level within that many iterations. For every run: no panic, every filter of the start ellipsoid that meets the reported level stays in the final ellipsoid, and stopping on a rejected cut proves that none exists.", "quantifier": "every dimension n >= 2, band edges, bounds, levels, start sizes, tolerances and budgets, over the reals extended with infinities", "why_tests_cant": "the repository's only test of this oracle is an infeasible problem (C71) and stops at once; convergence is a statement about all runs", "anchors": ["src/oracles/lowpass_oracle.rs:20-151", "src/cutting_plane.rs:205-313", "src/ell.rs"]}
{"id": "C94", "title": "A run on an ellipsoid panics only if the oracle does", "statement": "With an oracle that answers every question about a vector of dimension n with a gradient of dimension n, cutting_plane_feas, cutting_plane_optim and cutting_plane_optim_q on a well-shaped Ell return, whatever the numbers are (NaN, infinities, zero or negative kappa, overflow); the final ellipsoid is well-shaped and a reported point has dimension n. bsearch over such a problem panics exactly when lower <= upper is false (also for NaN ends). The example, profit and least-squares oracles of the repository are such oracles.", "quantifier": "every oracle state, ellipsoid content, level, tolerance and budget, any number type including binary64", "why_tests_cant": "panic freedom of loops over arbitrary data", "anchors": ["src/cutting_plane.rs:205-466", "src/ell.rs", "src/example1.rs", "src/example3.rs", "src/oracles/profit_oracle.rs"]}
{"id": "C95", "title": "What switching parallel cuts off does", "statement": "An EllCalc with use_parallel_cut = false answers a pair of parallel cuts by NoSoln when the pair is contradictory (second offset below the first, or negative for central cuts) and otherwise exactly as a calculator with the switch on answers the first cut alone; a new calculator has the switch on, and the switch never matters for single cuts.", "quantifier": "every dimension, offsets and squared width, every number type including binary64, the bias, central and quantised calculators", "why_tests_cant": "no test of the repository ever sets the switch to false; only its default value is tested", "anchors": ["src/ell_calc.rs:625-720", "src/ell_calc.rs:751-847"]}
{"id": "C96", "title": "Each cut gives the smallest ellipsoid that holds what it keeps", "statement": "After a bias, central or quantised update of a nondegenerate Ell, with one cut or with a pair of parallel cuts, no ellipsoid whatsoever that contains the kept part of the old ellipsoid has a smaller volume, and one of equal volume is the same set of points; so a pair of cuts never leaves more volume than its first cut alone. For a pair whose first cut lies outside the ellipsoid this fails: the answer still contains the kept part but is not the smallest.", "quantifier": "every dimension n >= 2, ellipsoid, gradient, offsets in the range where the cut is accepted, and every competing nondegenerate ellipsoid, over the reals", "why_tests_cant": "minimality compares with infinitely many other ellipsoids", "anchors": ["src/ell_calc.rs:218-611", "src/ell_calc.rs:751-931", "src/ell.rs"]}
{"id": "C97", "title": "The quasi-convex example is solved by a whole run", "statement": "cutting_plane_optim with the oracle of quasicvx.rs (maximise s/e^l over s^2 <= l): what is reported is feasible and gamma is its value (any number type and search space); from a start level >= 0 a run with enough iterations comes within 4r of every feasible point the start ellipsoid surrounds, when the tolerance is at most r^2; stopping on a rejected cut proves that nothing in the start ellipsoid is as good; a start level above sqrt(1/2)/e^(1/2) is never met; from Ell::new([val,val],[0,0]) with default options the assertions of the crate's test on x hold.", "quantifier": "every start ellipsoid, level >= 0, tolerance, budget and feasible competitor; val from 1 to 10^20, over the reals", "why_tests_cant": "tests run one start; convergence and optimality quantify over all starts and competitors", "anchors": ["src/quasicvx.rs:16-100", "src/cutting_plane.rs:255-313"]}
{"id": "C98", "title": "The cut calculators are accurate in binary64", "statement": "In IEEE double arithmetic, for 2 <= n <= 2^26 and tsq and offsets between 2^-100 and 2^100 (or offset 0): a central cut returns tau/(n+1), 2/(n+1), n^2/(n^2-1) to within 2 roundings; a bias cut with offset >= 0 (update_bias_cut and update_q) returns step and weight to within 3 and 7 roundings and delta to within 24*2^-53 absolutely; a parallel central cut returns step and weight to within 32 roundings and delta to within 152; nothing overflows or becomes NaN. NoSoln is never reported when the exact numbers say the cut meets the ellipsoid (all finite inputs), and Success never when the offset exceeds tau by more than one rounding.", "quantifier": "every finite binary64 input in the stated range, every dimension 2..2^26", "why_tests_cant": "tests compare a handful of values to a tolerance; the error bound is over all inputs", "anchors": ["src/ell_calc.rs:60-140", "src/ell_calc.rs:420-611", "src/ell_calc.rs:814-931"]}
{"id": "C99", "title": "What factor's Boolean means in binary64", "statement": "In IEEE double arithmetic, for a symmetric n x n matrix A (n <= 2^26) with diagonal between 2^-400 and 2^400, however large or small the other entries: if factor returns true and the computed pivots are finite, A + 4 n^2 2^-53 diag(A) is positive definite; if it returns false and the pivots up to the failing row are finite, A - 16 n^2 2^-53 diag(A) is not positive definite. Without the finite-pivot condition the first claim is false: an indefinite matrix of finite numbers is reported positive definite because a multiplier overflows and the pivot becomes NaN.", "quantifier": "every binary64 symmetric matrix with diagonal in the range, every size up to 2^26, every history of the manager", "why_tests_cant": "rounding error of a factorisation over all matrices", "anchors": ["src/oracles/ldlt_mgr.rs: factor"]}
{"id": "C100", "title": "Accuracy of inner, matrix-vector and outer products, sums and rank-one updates in binary64", "statement": "In IEEE double arithmetic, a finite inner product (dot) of two vectors of length n <= 2^26 differs from the exact one by at most 3 n 2^-53 times the sum of the absolute terms, plus 4 n 2^-1075 for underflow; it is finite whenever the vectors are finite and the terms are at most 2^600; every finite entry of a matrix-vector product obeys the same bound. A finite sum of n <= 2^26 numbers is off by at most 2 n 2^-53 times the sum of their absolute values plus 2 n 2^-1075, and is finite if they are at most 2^900. Every finite entry of outer is the product to half a unit in the last place, and every finite entry of rank_one_update is a + alpha u_i u_j up to 2^-53 |a| + 4 2^-53 |alpha u_i u_j| plus underflow, the result being exactly symmetric.", "quantifier": "all binary64 vectors and matrices of these sizes", "why_tests_cant": "a rounding-error bound over all inputs", "anchors": ["src/arr.rs: dot", "src/arr.rs: dot_mv", "src/arr.rs: sum", "src/arr.rs: outer", "src/arr.rs: rank_one_update"]}
{"id": "C101", "title": "One ellipsoid step in binary64 loses nothing beyond a small slack", "statement": "In IEEE double arithmetic, take an ellipsoid of dimension 2 <= n <= 2^26 with finite numbers far from overflow, symmetric shape matrix with entries up to L and eigenvalues from l on, centre coordinates up to X, and a cut at an offset between 0 and half the half width. The update returns Success, every number of the new state is finite, its shape matrix is symmetric with eigenvalues at least l/11, and the new ellipsoid with kappa enlarged by the factor 1 + s, s = 2^-53 (3200 n^2 L/l + 20 X sqrt(n/(l kappa))), holds every point of the old ellipsoid that satisfies the cut (s at most 1/10). If the old ellipsoid had to be enlarged by 1 + d to hold the points, the new one has to be enlarged by (1 + d ((n+1)/n/(1-a))^2)(1+s), a the relative depth of the cut. For central cuts, offset cuts and the cuts of the discrete driver.", "quantifier": "every such ellipsoid, gradient, offset and point", "why_tests_cant": "rounding error of the whole step over all states", "anchors": ["src/ell.rs: update_core", "src/ell.rs: update_central_cut", "src/ell.rs: update_bias_cut", "src/ell.rs: update_q", "src/ell_calc.rs"]}
{"id": "C102", "title": "One ellipsoid step in binary64 shrinks the volume", "statement": "Under the conditions of C101 the new ellipsoid has positive volume, and its squared volume is at most (1+s)^n exp(-1/(n+1)) times that of the old one, s the slack of C101.", "quantifier": "every such ellipsoid, gradient and offset; central cuts, offset cuts and the cuts of the discrete driver", "why_tests_cant": "a bound on the volume under rounding over all states", "anchors": ["src/ell.rs: update_core", "src/ell_calc.rs"]}
{"id": "C103", "title": "The drivers apply exactly the cuts the oracle asks for", "statement": "Every run of a driver on an ellipsoid is this: ask the oracle at the current centre (with the current best value, and for the discrete driver the retry flag), apply its cut in the right way (central exactly when the answer comes with an improvement, quantised in the discrete driver), go on while the cut succeeds (discrete: or there are alternatives) and the squared half width is not below the tolerance; and the run ends only because the oracle has no cut, because the last cut does not allow to go on, or at the iteration limit, with the number of cuts as the iteration count and the last improving point as the answer.", "quantifier": "every arithmetic, oracle, kind of cut, start, options", "why_tests_cant": "all executions with all oracles", "anchors": ["src/cutting_plane.rs: cutting_plane_feas", "src/cutting_plane.rs: cutting_plane_optim", "src/cutting_plane.rs: cutting_plane_optim_q"]}
{"id": "C104", "title": "Whole runs in binary64 lose nothing beyond an explicit excess, and shrink geometrically", "statement": "In IEEE double arithmetic, as long as the visited states are tame (C101) with slack at most s <= 1/10, cuts reach at most half the half width, and an exact step enlarges an excess at most by the factor G: after k cuts every point of the start ellipsoid satisfying all cuts lies in the current ellipsoid enlarged by 1 + s(1 + q + ... + q^(k-1)), q = G(1+s), and the squared volume is at most ((1+s)^n exp(-1/(n+1)))^k times the first one. Hence, for a feasibility driver with a valid oracle, k iterations without success are impossible if the feasible set has a ball of radius r in the start ellipsoid and (r^2)^n exceeds the bound; the same for the optimisation driver with the points better than the value it returns.", "quantifier": "every such run, oracle, number of cuts", "why_tests_cant": "all executions, accumulated rounding error", "anchors": ["src/cutting_plane.rs: cutting_plane_feas", "src/cutting_plane.rs: cutting_plane_optim", "src/ell.rs: update_core"]}
{"id": "C105", "title": "The quasi-convex oracle of the integration test (maximise sqrt(x)/y over exp(x) <= y, x >= 0)", "statement": "A reported point satisfies every constraint as computed and gamma is its value. At every point with x not 0 the answer is right for any gamma: accepted exactly when feasible and at least as good, and otherwise the cut removes no feasible point that is as good. A level above sqrt(1/2)/sqrt(e) is never met. With default options the start of the test ends with a point whose value is within 4e-10 of the best value, unless some centre has x exactly 0; in that case the oracle divides by zero, and in binary64 a run from the feasible point (0, 2) reports NaN as the best point.", "quantifier": "every point, gamma, counter; every start, options and run as stated", "why_tests_cant": "all points and all executions; the tests only see whether some point is returned", "anchors": ["tests/quasicvx2_tests.rs: MyQuasicvxOracle::assess_optim", "src/cutting_plane.rs: cutting_plane_optim"]}
{"id": "C106", "title": "What the LMI oracle's answers mean in double arithmetic", "statement": "For a problem of finite symmetric matrices far from overflow and a point in a box, with eps = (50 n^3 + 4 n k) 2^-53 M: if there is no cut and the pivots are finite then B - sum x_k F_k is positive definite after adding eps to the diagonal; if there is a cut with finite pivots and gradient, its offset is finite and not negative, no point y of the box for which B - sum y_k F_k stays positive semidefinite after subtracting eps from the diagonal is cut off, and the point asked about is not such a point. The oracle always answers and keeps the problem.", "quantifier": "every size up to 2^20, every such problem, every point of the box", "why_tests_cant": "a statement about rounding errors for all matrices and points; tests compare a few results with tolerances", "anchors": ["src/oracles/lmi_oracle.rs: assess_feas", "src/oracles/ldlt_mgr.rs: factor, witness, sym_quad"]}
{"id": "C107", "title": "The feasibility driver with the LMI oracles in double arithmetic", "statement": "For runs of cutting_plane_feas with LMIOracle or LMIOldOracle on an Ell in which all states stay well conditioned, in the box and with finite pivots: a returned point satisfies the inequality up to eps; every point of the start ellipsoid that satisfies it with eps to spare is in the last ellipsoid enlarged by a computable excess; and a ball of such points of radius rho bounds the number of iterations through the volume.", "quantifier": "every problem, start, options and run as stated", "why_tests_cant": "all executions, rounding included", "anchors": ["src/oracles/lmi_oracle.rs: assess_feas", "src/oracles/lmi_old_oracle.rs: assess_feas", "src/cutting_plane.rs: cutting_plane_feas", "src/ell.rs: update_bias_cut"]}
{"id": "C108", "title": "What the homogeneous LMI oracle's answers mean in double arithmetic", "statement": "For LMI0Oracle on finite symmetric matrices far from overflow and a point in a box, with eps = (50 n^3 + 4 n k) 2^-53 M: if there is no cut and the pivots are finite then sum x_k F_k is positive definite after adding eps to the diagonal; if there is a cut with finite pivots and gradient, its offset is finite and not negative, no point y of the box for which sum y_k F_k stays positive semidefinite after subtracting eps from the diagonal is cut off, and the point asked about is not such a point. The oracle always answers and keeps the problem.", "quantifier": "every size up to 2^20, every such problem, every point of the box", "why_tests_cant": "a statement about rounding errors for all matrices and points; tests compare a few results with tolerances", "anchors": ["src/oracles/lmi0_oracle.rs: assess_feas", "src/oracles/ldlt_mgr.rs: factor, witness, sym_quad"]}
{"id": "C109", "title": "One step with a pair of parallel cuts in double arithmetic", "statement": "For a pair of parallel cuts of depths 0 <= b0 < b1, the first at most half way to the boundary, in IEEE double arithmetic, 2 <= n <= 2^26, numbers between 2^-100 and 2^100: if the second cut is seen inside the ellipsoid, the calculators for update_bias_cut and update_q accept and return step, weight and factor within the relative error 28 n 2^-53 of those of the smallest ellipsoid around the slab; and a whole step of update_bias_cut, update_q and update_central_cut from a well-conditioned ellipsoid returns Success with finite numbers, a symmetric shape matrix with eigenvalues bounded below, an ellipsoid which enlarged by an explicit slack (proportional to the condition number and to the squared ratio of half width to slab thickness) holds every point of the old one between the cuts, and a squared volume shrunk by exp(-1/(n+1)) up to the slack. If the second cut is seen outside or there is none, the step has the guarantees of the first cut alone.", "quantifier": "every dimension 2..2^26, every such ellipsoid, gradient and pair of depths", "why_tests_cant": "a rounding-error bound over all ellipsoids, gradients and depths; tests compare a few values with tolerances", "anchors": ["src/ell_calc.rs: calc_parallel_bias_cut, calc_parallel_bias_cut_fast, calc_parallel_central_cut, calc_parallel_q", "src/ell.rs: update_core, ParallelCut"]}
{"id": "C110", "title": "Sequences of pairs of parallel cuts and runs with them in double arithmetic", "statement": "In IEEE double arithmetic, along a sequence of pairs of parallel cuts in which every ellipsoid is well conditioned, no first cut is deeper than half the half width, and each second cut is either seen inside the ellipsoid with a slab that is not too thin, or seen outside, or missing: a point between the cuts of every pair stays in every later ellipsoid enlarged by an explicit excess, and the squared volume shrinks by exp(-1/(n+1)) per pair up to a slack. Hence for a run of cutting_plane_feas or cutting_plane_optim with an oracle that answers with pairs: whatever the last ellipsoid misses, beyond the excess, is infeasible (does not beat the level returned), and a ball of feasible (better) points bounds the number of iterations.", "quantifier": "every dimension 2..2^26, every such sequence, oracle, start and number of iterations", "why_tests_cant": "an invariant over all runs and a rounding-error bound that has to hold at every step; tests run a few problems", "anchors": ["src/ell.rs: update_bias_cut, update_central_cut, update_q with ParallelCut", "src/cutting_plane.rs: cutting_plane_feas, cutting_plane_optim"]}
{"id": "C111", "title": "The lowpass oracle in double arithmetic", "statement": "In IEEE double arithmetic, for a LowpassOracle with finite coefficients up to W and bounds up to S, and a query of n finite numbers up to X (n <= 2^26, magnitudes up to 2^200), with the margin eps = (5 n^2 W X + 2 S) 2^-53 + 2^-1000: assess_feas never panics; no cut means that the query meets the specification up to eps; a cut has a positive first offset and keeps every point that meets the specification with eps to spare. assess_optim reports as improved level a value within eps of the largest stop-band response of the query, never above the old level, at a query that meets the specification up to eps, and its cut keeps every point that meets the specification at the new level with eps to spare. In a run of cutting_plane_optim over an ellipsoid, the answer has these properties, and no point that meets the specification at the returned level with eps to spare is lost beyond the excess of C110.", "quantifier": "every such oracle state, query, level and run", "why_tests_cant": "a rounding-error bound over all filters, queries and levels, and an invariant over all runs; the tests run one design and look at the number of iterations", "anchors": ["src/oracles/lowpass_oracle.rs: assess_feas, assess_optim", "src/cutting_plane.rs: cutting_plane_optim", "src/ell.rs: ParallelCut"]}
{"id": "C112", "title": "Lowpass designs in double arithmetic: from the constructor to the answer", "statement": "In IEEE double arithmetic, for up to 2^20 taps, finite band edges 0 <= wpass <= wstop < 1 and finite bounds up to S, on a platform whose cos is finite and good to dl <= 1/2 on the angles used: LowpassOracle::new does not panic; the pass and stop bands consist of the frequencies k/(15n-1) up to wpass and beyond wstop, where only frequencies within 2^-52 of an edge may count on the other side; the stop band is never empty; every coefficient is within 2 dl + n 2^-47 of 2 cos(pi k j/(15n-1)) and at most 4. A following run of cutting_plane_optim over an ellipsoid (conditions along the run as in C110) returns a filter that meets the specification with the exact cosines up to the margin (5 n^2 4 X + 2 S) 2^-53 + 2^-1000 + n X (2 dl + n 2^-47), with the level returned equal to its largest stop-band response up to that margin, and loses no filter of the box of half width X that meets the specification with that margin to spare.", "quantifier": "every number of taps, band edges, bounds, platform cosine with the stated accuracy, starting ellipsoid and run", "why_tests_cant": "error bounds over all parameters and all libm implementations; that wstop just below 1 cannot round to an empty stop band (which would make assess_optim panic) depends on the rounding of wstop*(15n-1) for every double", "anchors": ["src/oracles/lowpass_oracle.rs: LowpassOracle::new, assess_optim", "src/arr.rs: linspace", "src/cutting_plane.rs: cutting_plane_optim"]}
{"id": "C113", "title": "The residual behind an answer of conjugate_gradient in double arithmetic", "statement": "In IEEE double arithmetic, for up to 2^20 unknowns, any square matrix with entries up to W (symmetric or not), any right-hand side, starting point and finite tolerance: if along the run the iterates stay within X, the tracked residuals within Y (with Y >= 2 tol + 2^-400) and the step sizes within T >= 1, then an answer Ok(x) after at most m rounds, with finite coordinates within X, has ||b - A x||_2 <= (1 + 6 n 2^-53) tol + 2^-500 + n (m + 1) ((11 n^2 W X + 4 Y) 2^-53 + (n W + n T + 1) 2^-1072). The residual tested by the method is updated, never recomputed; this bounds how far it can have drifted from the true one.", "quantifier": "every matrix, right-hand side, starting point, tolerance, iteration limit and run with the stated growth", "why_tests_cant": "the tracked and the true residual differ by accumulated rounding that depends on the whole run; a test checks one system, where the difference is invisible", "anchors": ["src/conjugate_gradient.rs: conjugate_gradient"]}
{"id": "C114", "title": "The profit oracle in double arithmetic: construction, one call, a whole optimisation", "statement": "In IEEE double arithmetic, on a platform whose exp and ln are accurate to dl <= 1e-6, with finite data of moderate size and query points with coordinates up to X: (1) the constructed oracle works with logarithms within dl + 2^-40 of those of unit_price*scale and limit. (2) A call of assess_optim at a level ga >= 0 answers without panic and with finite numbers; a rejected point has a positive offset and leaves the level alone; an accepted point earns the level in a market better by the factor exp(3(dl+2^-40)), the new level is its true profit within (dl+2^-40) times revenue plus costs, so the level never falls by more than 5(dl+2^-40)e^L; and the cut keeps every point of the box that earns the new level in a market worse by the factor exp(-5(1+4X)(dl+2^-40)). (3) A run of cutting_plane_optim with an Ell returns a point that is admissible, and a level which is its profit, up to that accuracy; points of the box that beat the level by the margins are never cut off (up to the accumulated rounding of the ellipsoid), and the number of rounds is bounded by the volume of a ball of such points.", "quantifier": "every market, query point, level, platform libm of the stated accuracy and run satisfying the size and conditioning bounds", "why_tests_cant": "the claim is about accumulated rounding and libm error for all markets; tests compare one optimum with a tolerance of 1e-3 or so and cannot show that no better point was cut off", "anchors": ["src/oracles/profit_oracle.rs: ProfitOracle::new", "src/oracles/profit_oracle.rs: ProfitOracle::assess_optim", "src/cutting_plane.rs: cutting_plane_optim", "src/ell.rs"]}
{"id": "C115", "title": "The robust profit oracle in double arithmetic: construction, one call, a whole optimisation", "statement": "In IEEE double arithmetic, on a platform whose exp and ln are accurate to dl <= 1e-6, with finite data of moderate size: (1) ProfitRbOracle::new works with a box of markets equal to the one asked for (price and limit lowered, costs raised by the uncertainties) up to the factor exp(2(dl+2^-40)). (2) At a level ga >= 0 and a query point with coordinates up to X, assess_optim answers with finite numbers; an accepted point earns the old level in every market of the box (up to the accuracy), the new level is the profit in the worst market within 2(dl+2^-40) times revenue plus costs and is at most that in all others; the cut keeps every point of the box that earns the new level in all markets with the margin to spare. (3) The answer of a run of cutting_plane_optim with an Ell has these guarantees, and points robustly better by the margins are never cut off.", "quantifier": "every box of markets, query point, level, platform libm of the stated accuracy and run satisfying the size and conditioning bounds", "why_tests_cant": "the guarantee is over all markets in the box at once and over accumulated rounding; the test runs one market and checks only the limit and the iteration count", "anchors": ["src/oracles/profit_oracle.rs: ProfitRbOracle::new", "src/oracles/profit_oracle.rs: ProfitRbOracle::assess_optim", "src/cutting_plane.rs: cutting_plane_optim", "src/ell.rs"]}
{"id": "C116", "title": "The power iterations in double arithmetic", "statement": "In IEEE double arithmetic, for an n by n matrix (n <= 2^20) of finite numbers with Frobenius norm Phi up to 2^200 whose smallest singular value is at least max(2^-400, 6 n u Phi) (u = 2^-53), and a start vector that is neither extremely long nor extremely short: power_iteration, power_iteration2 and power_iteration4 return finite numbers for every tolerance and round limit; the vector x satisfies |x.x - 1| <= 24 n u and the value is x.Ax within 13 n u Phi + 2^-1020. If power_iteration stops before its round limit, |A x - q x| <= Phi((1 + 16 n u) tol + 72 n u) + 2^-1000; for power_iteration4 sqrt(n) Phi((1 + 42 n u) tol + 84 n u) + 2^-1000. For any other matrix and start vector, an early answer of power_iteration with a finite value and 1/2 <= x.x <= 2 satisfies the same kind of bound with 3/2 |x.x - 1| Phi added. Without size conditions the claim is false: on a 1 by 1 matrix with an entry around 1e-162 the returned vector has square length above 1.1 and the value is 20% off. power_iteration3, which multiplies without scaling until the square length reaches 1e150, never panics on a square matrix and a start vector of matching length; if its value q is finite and its last unscaled vector w has 2^-900 <= w.w <= 2^600, q is w.Aw/w.w within 12 n u Phi + 2^-120; if w was scaled and w.w <= 2, q is w.Aw within 13 n u Phi + 2^-1020.", "quantifier": "every matrix, start vector, tolerance and round limit as described, every dimension up to 2^20", "why_tests_cant": "the tests only compare iteration counts on one 3 by 3 matrix; the bounds are over all matrices and all accumulated rounding errors", "anchors": ["src/power_iteration.rs: power_iteration", "src/power_iteration.rs: power_iteration2", "src/power_iteration.rs: power_iteration4", "src/arr.rs: dot, dot_mv, DivAssign", "src/power_iteration.rs: power_iteration3"]}
{"id": "C117", "title": "The quasi-convex example in double arithmetic", "statement": "The quasi-convex example oracle (maximise s / e^l subject to s^2 <= l) in IEEE double arithmetic, on a platform whose exp is good to a relative error dl <= 1e-6, with query points in the square |s|, |l| <= X <= 200 and a level between 0 and C <= 2^100: every call answers; a rejected point comes with a positive offset and an unchanged level; an accepted point satisfies the constraint and the new level is its value, up to about dl + 2^-50; a level falls by at most C 2^-51 in a call and no new level exceeds 0.44; and the cut keeps every point of the square that satisfies the constraint and reaches the new level with the margin 2 (dl + 2^-50)(1 + 2X)(X + C e^X) to spare. A whole run of cutting_plane_optim with an ellipsoid in which every step is numerically tame returns a point with its value to that accuracy, and has not cut off any point that reaches the returned level with margin and drops to spare, so that a ball of such points bounds the number of rounds. A run that starts from a level above 0.44 (by the drop) returns no point and leaves the level alone.", "quantifier": "every exp of that accuracy, every query point and level in the ranges, every ellipsoid, tolerance and round limit", "why_tests_cant": "the tests run four starting points on one platform; the claim is about every rounding error and every exp implementation", "anchors": ["src/quasicvx.rs: MyOracle::assess_optim", "src/cutting_plane.rs: cutting_plane_optim", "src/ell.rs: Ell"]}
{"id": "C118", "title": "bsearch in double arithmetic: bracket, number of rounds, flag", "statement": "bsearch in IEEE double arithmetic with an oracle that accepts exactly the doubles from a real threshold T on, finite ends l < T <= u whose difference does not overflow and a finite tolerance: the call returns; the final ends are the given ones or probed values (the lower one refused, the upper one accepted), they enclose T and lie in [l, u], and their distance is at most (u-l)/2^k + 2^-50 max(|l|,|u|) + 2^-1072 after k probes; a probe is made only while that width is not below twice the tolerance, and the search stops early only if it is, both up to a relative 2^-50; the flag says whether the upper end moved. If the tolerance is at most 2^-55 |T| (the default 1e-20 for every threshold of size 1e-3 or more) no run stops early: all max_iters probes are spent. Unlike in exact arithmetic the flag can be false although every probe was accepted, when the probes are rounded to the upper end.", "quantifier": "every threshold oracle, real threshold, pair of doubles, tolerance and max_iters", "why_tests_cant": "the tests run two intervals with one threshold; the claim is about every rounding of every midpoint over runs of any length", "anchors": ["src/cutting_plane.rs: bsearch", "src/cutting_plane.rs: Options::default"]}
{"id": "C119", "title": "The linear examples in double arithmetic: calls and whole runs", "statement": "The oracles of example1, example1_rr, example4 (maximise a linear function over linear constraints, level gamma) and example3 (feasibility below a target) in IEEE double arithmetic, at query points of size at most X with a level that is minus infinity or of size at most C (C >= 6X, C <= 2^1000): every call answers; a rejected point comes with the old level and a positive offset; an accepted one satisfies the constraints, and the new level is its objective, both up to C*2^-50; the level never falls; and the cut leaves every point that satisfies the constraints and beats the new level with C*2^-50 to spare. So in a whole run with an ellipsoid whose centres stay in range, also from gamma = minus infinity, the level does not fall, no answer means an unchanged level, a level above the optimum (3 for example1, 12 for example4) gives no answer, and an answer is feasible with the level returned as its objective up to C*2^-50; with well conditioned ellipsoids the points better than the level returned are never cut off, which bounds the number of rounds.", "quantifier": "every query point, level, target, round-robin index, ellipsoid, options and run length in the stated ranges", "why_tests_cant": "the tests start from a few points and compare one flag and one iteration count; the claim covers the rounding of every test at every point and whole runs", "anchors": ["src/example1.rs: assess_optim", "src/example1_rr.rs: assess_optim", "src/example3.rs: assess_feas", "src/example4.rs: assess_optim", "src/cutting_plane.rs: cutting_plane_optim", "src/cutting_plane.rs: cutting_plane_feas"]}
{"id": "C120", "title": "LDLTMgr::sqrt in double arithmetic", "statement": "After LDLTMgr::factor has accepted a symmetric matrix A of size n <= 2^26 in IEEE double arithmetic with finite pivots and a diagonal between 2^-400 and 2^400, LDLTMgr::sqrt returns an n x n matrix R of finite numbers, upper triangular with a positive diagonal, and every entry of R'R differs from the entry of A by at most 12 n 2^-53 sqrt(a_ii a_jj).", "quantifier": "every such matrix, whatever the manager has factored before", "why_tests_cant": "the tests factor four small integer matrices whose roots are integers; the claim bounds the accumulated rounding of factorisation and root for every matrix", "anchors": ["src/oracles/ldlt_mgr.rs: LDLTMgr::factor", "src/oracles/ldlt_mgr.rs: LDLTMgr::sqrt"]}
{"id": "C121", "title": "linspace and arange in double arithmetic", "statement": "For finite ends of size at most M <= 2^1000 and 2 <= n <= 2^53, linspace(a, b, n) in IEEE double arithmetic has n finite points in order, the first exactly a, each within 16 M 2^-53 (plus 4 n 2^-1075 for underflow) of a + (b-a) i/(n-1); the last point need not be b, it can lie below or above. For ends of size at most 2^50 with a < b, arange(a, b) has between floor(b-a) and ceil(b-a) points, strictly increasing, all in [a, b), each the rounded a + i; it is empty when b <= a; from 2^53 on it can repeat points and contain its end.", "quantifier": "all doubles a, b and sizes n in these ranges", "why_tests_cant": "a rounding-error bound and an order over all ends and sizes; tests use small ends where nothing rounds", "anchors": ["src/arr.rs: linspace", "src/arr.rs: arange"]}
{"id": "C122", "title": "Round-robin oracles starve no constraint", "statement": "The oracles of example1_rr, example3, example4, the quasi-convex example, the quasi-convex test problem with three constraints and the profit oracles (plain, robust and, at the query point and then at the point of whole amounts, discrete) cut with the first violated constraint, in cyclic order, after the one they cut with last. Hence for the optimisation oracles among them except the discrete one: among any m consecutive calls (m the number of constraints), at whatever points and levels, a constraint violated at each of them is the cut of at least one.", "quantifier": "all histories, points and levels, any number type (doubles included)", "why_tests_cant": "a claim about every sequence of calls; tests look at single answers and final optima", "anchors": ["src/oracles/profit_oracle.rs: ProfitOracle::assess_feas", "src/example1_rr.rs", "src/example3.rs", "src/example4.rs", "src/quasicvx.rs"]}
{"id": "C123", "title": "The lowpass oracle goes through its bands in turn", "statement": "Each call of the lowpass oracle cuts with the first bad frequency of the pass band, in cyclic order, after the one it cut with last; only when the whole pass band is good does it look at the stop band, and only then at the transition band, each gone through from where it was left. Hence among as many consecutive calls as a band has frequencies, at whatever points and levels, a frequency bad at each of them (with the bands before it good) is the cut of at least one.", "quantifier": "all oracles whose counters are in range, all points, levels and histories, any number type (doubles included)", "why_tests_cant": "a claim about every sequence of calls; the test looks only at the final answer of one design", "anchors": ["src/oracles/lowpass_oracle.rs: LowpassOracle::assess_feas, assess_optim"]}
{"id": "C124", "title": "The SVM oracle in double arithmetic", "statement": "With labels 1 and -1 and data and query points of moderate size, every call of the SVM oracle returns finite numbers, exactly as many gradient entries as features plus one, and a beta equal to the level. Either it answers zero, and then every sample's true margin is at least 1 up to an explicit rounding bound; or the level is below 1, within the bound of the true smallest margin, the gradient is exactly that of a sample whose margin is within the bound of the level, and the half space through the query point keeps every weight vector whose margins all exceed the level by the bound.", "quantifier": "all data sets, labels, query points in range; all previous levels", "why_tests_cant": "the tests run two tiny data sets whose margins are exact", "anchors": ["src/oracles/svm_oracle.rs: SvmOracle::assess_optim"]}
{"id": "C125", "title": "The max-cut oracle in double arithmetic", "statement": "On graphs with whole weights (n^2 times the largest at most 2^52) the max-cut oracle makes no rounding error at all, at any query point, even with infinite or undefined coordinates (a coordinate that is not a number counts as negative): the level it reports is exactly the weight of the cut given by the signs, the gradient exactly minus twice the weight of the cut edges at each vertex, and it claims an improvement exactly when the cut is heavier than the level. An optimisation with any search space from minus infinity or a finite level reports exactly the weight of the cut it returns.", "quantifier": "all graphs with whole weights in range, all query points of doubles, all finite levels and minus infinity, all search spaces", "why_tests_cant": "the tests use graphs with two or three vertices and ordinary points", "anchors": ["src/oracles/maxcut_oracle.rs: MaxcutOracle::new, assess_optim"]}
{"id": "C126", "title": "The discrete profit oracle in double arithmetic", "statement": "In IEEE double arithmetic, on a platform whose exp and ln are good to dl, with data of moderate size and a query point y in a box, ProfitOracleQ answers. Either it rejects y with a positive offset and a cut that keeps every point of the box earning the level with a small margin; or the point x it hands back is made of logarithms of whole positive amounts up to dl: on a first try the amounts nearest to exp(y) (one instead of zero), and y itself has earned the level up to the accuracy; on a retry the amounts of the last try. The level returned is the profit of x up to the accuracy when there is an improvement and the old level otherwise, it falls by no more than a small drop, and the offset is that of a valid cut at x plus g.(x - y) up to 2^-30.", "quantifier": "every market, box, query point and level in range, both values of retry, every libm of the stated accuracy", "why_tests_cant": "accuracy over all inputs and platforms", "anchors": ["src/oracles/profit_oracle.rs: ProfitOracleQ::assess_optim_q"]}
{"id": "C127", "title": "Which calls of the LDLT manager panic depends on the last verdict alone", "statement": "In any number type, including doubles with NaN and infinities, and after any earlier calls: a factorisation (strict or semidefinite) of a matrix that can be read never panics; after it and any number of witness calls, sqrt panics exactly if the matrix was rejected, witness exactly if it was accepted, and is_spd repeats the verdict. On a new manager sqrt answers and witness panics.", "quantifier": "every number type, size, matrix and history of calls", "why_tests_cant": "all histories and all matrices, NaN included", "anchors": ["src/oracles/ldlt_mgr.rs: factor, factor_with_allow_semidefinite, witness, sqrt, is_spd"]}
{"id": "C128", "title": "The quasi-convex oracle of the integration test in double arithmetic", "statement": "In doubles, on a platform whose exp has relative error dl, one call of the oracle of tests/quasicvx2_tests.rs (maximise sqrt(x)/y over exp(x) <= y, x >= 0), at a point of the square of half width X whose x is not in [0, r^2) and a level in [0, C], answers with finite numbers; a rejected point leaves the level alone and has a positive offset; an accepted point satisfies the constraints up to dl and the new level is sqrt(x)/y to 2^-50 and at most 0.44; levels fall by at most C 2^-51; and no cut removes a point of the square that meets the constraints and the new level with an explicit margin. A whole run of cutting_plane_optim with Ell inherits this: what it returns is feasible and has the reported value up to the accuracy, no point that beats it by margin and drops is lost, balls of such points bound the number of rounds, and a run from a level above 0.44 returns nothing.", "quantifier": "all platforms with that exp, all squares up to half width 200, all levels, all points off the axis, all tame runs", "why_tests_cant": "the tests run one start on one platform; rounding in exp, sqrt and the division is not visible in the answer", "anchors": ["tests/quasicvx2_tests.rs: MyQuasicvxOracle::assess_optim", "src/cutting_plane.rs: cutting_plane_optim"]}
