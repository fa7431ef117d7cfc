# Formal model of ellalgo-rs: design

## Trusted base

* Coq 8.16.1's kernel (rechecked with `coqchk`).
* The axioms `Print Assumptions` lists for each theorem; the command stands
  under every theorem in the `Prop_*.v` files and the result is tabulated at the
  end of this file. Only four axioms occur, all of the standard library:
  `ClassicalDedekindReals.sig_forall_dec`, `ClassicalDedekindReals.sig_not_dec`,
  `FunctionalExtensionality.functional_extensionality_dep` (these three come
  with Coq's real numbers) and `Classical_Prop.classic` (from the real analysis
  lemmas of the standard library and of Flocq).
* The reading of the Rust source: the model is written by hand, function by
  function, with a file/line citation on every definition. `Replay.v` and the
  `*Float.v` files run the f64 instance of the model inside the kernel on inputs
  of the repository's own tests and compare with the numbers in those tests.
  `ReplayLibm.v` does so for the tests that use exp and ln (with an exp and ln
  written for the purpose): the runs take exactly the recorded 83, 90, 29 and 35
  iterations.
* Our own: no axiom, no parameter, no module type/functor, no `Admitted`.

## Model

**Numbers.** All model functions are generic in a record `Num` of operations
(`Num.v`): constants, `+ - * / neg abs sqrt exp ln cos round floor`,
comparisons, conversions. Instances:

* `RNum`: Coq reals, exact. `x/0` and `sqrt` of a negative are totalised by the
  library, therefore theorems over `RNum` carry the exact nonzero/nonnegative
  conditions, and the instance `ENum` (below) shows that under the same
  conditions no such operation is ever evaluated. Infinities do not exist here
  (the fields are dummies), so code that starts from an infinity is treated
  over `ENum`.
* `ENum`: extended reals (`Fin r`, `PInf`, `NInf`) plus one error value `Nan`;
  division by zero, square root of a negative and ln of a non-positive number
  give `Nan`, which is absorbing and compares false with everything, as a NaN
  does. Used for definedness (C19) and for code using infinities or tests for
  zero (lowpass, SVM, power iteration, conjugate gradient).
* `FNum`: IEEE binary64 with round-to-nearest-even, from Flocq
  (`BinarySingleNaN`), infinities and a single NaN. `exp`, `ln`, `cos` are not
  specified by IEEE or Rust, so the instance takes them as arguments: theorems
  hold for every libm. The start value of `Iterator::sum` (0.0 in old, -0.0 in
  new Rust versions) is also an argument.
* Theorems stated for every `Num` use no law of arithmetic at all, so they hold
  bit for bit for f64, NaN included.

"Exact arithmetic" below means `RNum` or `ENum`: nothing is claimed about the
accumulation of rounding errors in f64 unless the row says binary64 or "every
number type".

**Panics and control flow.** `res A = Ok a | Panic`. Vector accesses are
checked; `assert!` failures and index errors give `Panic`. `for` loops are
`for_range` (with `Ok`/`Panic`) and `loop_range` (with early return). All loops
of the code are bounded, so no fuel is needed. `&mut` becomes a returned new
value. `usize` is `nat` (no overflow modelled: sizes are bounded by memory),
`i32` round-robin counters are `Z` (ranges proved, so no wrap-around).

**Arrays.** `Arr = {data : list; rows; cols}` with row-major access, as in
`arr.rs`; `debug_assert!` is modelled as absent (release build).

**Traits.** An oracle is a state type with a transition function; a search
space is a record of its methods over a state type. The drivers are generic
over both.

## Modelled / not modelled

Model files (every definition cites its lines): `Arr.v` (`arr.rs`),
`CuttingPlane.v` (`cutting_plane.rs`), `EllCalc.v` (`ell_calc.rs`), `Ell.v`
(`ell.rs`), `EllStable.v` (`ell_stable.rs`), `Ldlt.v`
(`oracles/ldlt_mgr.rs`), `Lmi.v` (`oracles/lmi*_oracle.rs`), `Lowpass.v`
(`oracles/lowpass_oracle.rs`), `Profit.v` (`oracles/profit_oracle.rs`), `Svm.v`
(`oracles/svm_oracle.rs`, `oracles/maxcut_oracle.rs`), `Examples.v`
(`example1.rs`, `example1_rr.rs`, `example3.rs`, `example4.rs`,
`quasicvx.rs`), `PowerIter.v` (`power_iteration.rs`), `Cg.v`
(`conjugate_gradient.rs`), `Portfolio.v`
(`examples/portfolio_optimization.rs`; its `main` in `PortfolioWitness.v`),
`Squares.v` (the least-squares oracles of `tests/integration_test.rs`,
`tests/regression_tests.rs`, `tests/numerical_stability.rs`; those tests and
`tests/cutting_plane_tests.rs` are replayed in binary64 in `Replay2.v`),
`Qcvx2.v` (the oracle of `tests/quasicvx2_tests.rs`).

Not modelled: `logging.rs`, `error.rs` (message formatting only), `Display`
impls, `Options::verbose` (never read), `main.rs`, benches; `ell1d.rs`,
`conceptual.rs` and `spectral_fact.rs` are not part of the crate (not declared
in `lib.rs`). NaN payloads and signs, and rounding modes other than the
default, are not modelled. Overflow of `usize`/`i32` is not modelled. Parallel
execution and time limits are not modelled.

## Specification vocabulary (independent of the model)

`Spec.v`: vectors `nat -> R`, matrices `nat -> nat -> R`, `Rsum`, dot product,
matrix-vector product, quadratic form, symmetric, positive (semi)definite on
`n` coordinates. The ellipsoid is
`in_ell n M kappa c x := exists y, x - c = M y /\ y.(M y) <= kappa`
(inverse-free; equal to the documented `(x-c)' M^-1 (x-c) <= kappa` whenever
`M` has an inverse, which is proved). `Det.v`: the determinant by Laplace
expansion, `vol2 = det(kappa M)`. `RunSpec.v`: what an oracle promises about its
cuts. The other `*Spec.v` files describe, without reference to the code, the
problems the oracles are about (linear matrix inequalities, filters, profit,
margins, cuts of graphs, Rayleigh quotients, linear systems, Krylov spaces).

Theorems stand in `Prop_*.v`, each closed by `exact` of a lemma proved
elsewhere, with an `Example` showing a concrete case that meets the hypotheses.

## Per property

| id | property | model | proof |
|----|----|----|----|
| C01 | A feasibility answer is the oracle's own answer | drivers, any number type, oracle and space | trace semantics: an independent inductive relation for the legal histories; the loop invariant shows that the result is the one of the unique history |
| C02 | Why cutting_plane_feas gave up, and how often it asked | drivers, any number type, oracle and space | trace semantics: an independent inductive relation for the legal histories; the loop invariant shows that the result is the one of the unique history |
| C03 | cutting_plane_optim returns the point of the last improvement | drivers, any number type, oracle and space | trace semantics: an independent inductive relation for the legal histories; the loop invariant shows that the result is the one of the unique history |
| C04 | gamma and x_best stay paired | drivers, any number type, oracle and space | trace semantics: an independent inductive relation for the legal histories; the loop invariant shows that the result is the one of the unique history |
| C05 | Retry protocol of cutting_plane_optim_q | drivers, any number type, oracle and space | trace semantics: an independent inductive relation for the legal histories; the loop invariant shows that the result is the one of the unique history |
| C06 | A probe of BSearchAdaptor does not consume the search space | `BSearchAdaptor`, any number type | unfolding plus C01; sequences of probes by induction |
| C07 | bsearch brackets the threshold | `bsearch` over `RNum` | bracket invariant, halving |
| C08 | bsearch reports nothing through its interval argument | `bsearch`, any number type, the interval passed through the state | the function returns the interval it leaves behind; exact panic condition |
| C09 | bsearch probes stay inside the interval in f64 | `bsearch` over `FNum` | Flocq: monotonicity of rounding; overflow witness by computation |
| C10 | A deep cut never loses a feasible point | `EllCalc`, `Ell` over `RNum` | inverse-free containment: the witness `y` is shifted; reduces to a quadratic inequality in `s = g.(x-xc)`; failures by rational witnesses |
| C11 | When a rejected single cut really means there is no solution | `EllCalc`, `Ell` over `RNum` | inverse-free containment: the witness `y` is shifted; reduces to a quadratic inequality in `s = g.(x-xc)`; failures by rational witnesses |
| C12 | The quantised single cut is sound for every beta | `EllCalc`, `Ell` over `RNum` | inverse-free containment: the witness `y` is shifted; reduces to a quadratic inequality in `s = g.(x-xc)`; failures by rational witnesses |
| C13 | The central cut keeps the half ellipsoid | `EllCalc`, `Ell` over `RNum` | inverse-free containment: the witness `y` is shifted; reduces to a quadratic inequality in `s = g.(x-xc)`; failures by rational witnesses |
| C14 | A parallel cut keeps the slab | `EllCalc`, `Ell` over `RNum` | inverse-free containment: the witness `y` is shifted; reduces to a quadratic inequality in `s = g.(x-xc)`; failures by rational witnesses |
| C15 | Statuses of parallel cuts are sound | `EllCalc`, `Ell` over `RNum` | inverse-free containment: the witness `y` is shifted; reduces to a quadratic inequality in `s = g.(x-xc)`; failures by rational witnesses |
| C16 | The parallel central cut keeps the slab | `EllCalc`, `Ell` over `RNum` | inverse-free containment: the witness `y` is shifted; reduces to a quadratic inequality in `s = g.(x-xc)`; failures by rational witnesses |
| C17 | Every successful cut shrinks the ellipsoid | same, determinant | Laplace determinant with column operations, Schur complement and the matrix determinant lemma (`DetLemmas.v`), then real analysis on `delta^n (1-sigma)` (`VolScalar.v`) |
| C18 | The two parallel formulas agree with each other and with their special cases | `EllCalcCore` over `RNum` | field and square-root algebra |
| C19 | No division by zero and no square root of a negative number | `EllCalc`, `Ell` over `ENum` | simulation: the `ENum` run is `Fin` of the `RNum` run |
| C20 | Dimension one is not supported by the cut formulas | `Ell` over `FNum` | lemmas on infinity, for every libm |
| C21 | A rejected cut does not move the ellipsoid | `Ell`, any number type | loop invariants without any algebraic law |
| C22 | The shape matrix stays exactly symmetric | `Ell`, any number type | loop invariants without any algebraic law |
| C23 | The ellipsoid stays an ellipsoid | `Ell` over `RNum` | quadratic-form algebra, Cauchy-Schwarz for semidefinite forms |
| C24 | tsq is the squared half-width | `Ell` over `RNum` | quadratic-form algebra, Cauchy-Schwarz for semidefinite forms |
| C25 | no_defer_trick is only a representation choice | `Ell` over `RNum` | quadratic-form algebra, Cauchy-Schwarz for semidefinite forms |
| C26 | Updates of well-shaped ellipsoids do not panic, and constructors build the documented set | `Ell`, any number type | loop invariants without any algebraic law |
| C27 | No feasible point is ever lost during a run | drivers and `Ell` over `RNum` | partial-correctness loop rule with the invariant `K` and E0 inside E; a rejected cut separates |
| C28 | The feasibility search succeeds within the classical bound | drivers and `Ell` over `RNum` | the volume falls by `exp(-1/(n+1))` per step (C17) and stays above that of the ball inside (`det_lower`) |
| C29 | The optimisation search reaches every value attained on a ball | drivers and `Ell` over `RNum` | as C28, with `beats` in the place of membership |
| C30 | EllStable reports the right width and size, but not the right shape | `EllStable` | LDL' invariants over `RNum`; rational witnesses for the failures |
| C31 | EllStable follows Ell only for the first cut or along the axes | `EllStable` | LDL' invariants over `RNum`; rational witnesses for the failures |
| C32 | A rejected cut leaves the ellipsoid of EllStable as it was | `EllStable`, any number type | bitwise argument |
| C33 | EllStable::new_with_matrix with a non-diagonal matrix is not the documented ellipsoid | `EllStable` | LDL' invariants over `RNum`; rational witnesses for the failures |
| C34 | Arr operations panic exactly on shape mismatch and keep shapes | `Arr`, any number type | case analysis, loop invariants |
| C35 | Arr linear algebra computes what it says | `Arr` over `RNum` | loop invariants |
| C36 | Dividing an Arr by a scalar is not element-wise division in f64 | `Arr` over `FNum` and `RNum` | witness by computation |
| C37 | linspace and arange | `Arr` over `RNum` | loop invariants |
| C38 | LDLTMgr::factor decides positive definiteness | `LDLTMgr` over `RNum` | LDL' invariant of the partially filled buffer |
| C39 | The witness certifies that the matrix is not positive definite | `LDLTMgr` over `RNum` | LDL' invariant of the partially filled buffer |
| C40 | LDLTMgr::sqrt returns a square root | `LDLTMgr` over `RNum` | LDL' invariant of the partially filled buffer |
| C41 | The semidefinite factorisation is one-sided | `LDLTMgr` over `RNum` | LDL' invariant of the partially filled buffer |
| C42 | Factorisation results do not depend on earlier calls | `LDLTMgr`, any number type | two-run invariant: equal on the block that is read |
| C43 | A matrix containing NaN is reported positive definite | `LDLTMgr` over `FNum` | NaN fails every test; computation |
| C44 | The LMI oracle accepts exactly the positive definite points | LMI oracles over `RNum` | from C38 and C39 |
| C45 | The LMI oracle's cut is valid and deep | LMI oracles over `RNum` | from C38 and C39 |
| C46 | LMIOldOracle and LMIOracle are the same function | LMI oracles, any number type | equality of the two matrix builders entry by entry |
| C47 | The homogeneous LMI oracle | LMI oracles over `RNum` | from C38 and C39 |
| C48 | The lowpass oracle never indexes out of range, except with an empty stop band | `LowpassOracle` over `ENum`; panic condition for any number type | counter invariants; NaN witness over `FNum` |
| C49 | The lowpass oracle checks all constraints whatever its counters are | `LowpassOracle` | exhaustiveness of a cyclic scan (any number type); feasibility over `ENum` |
| C50 | Lowpass cuts are valid parallel cuts | `LowpassOracle` | exhaustiveness of a cyclic scan (any number type); feasibility over `ENum` |
| C51 | Lowpass optimisation reports the true stop-band level | `LowpassOracle` | exhaustiveness of a cyclic scan (any number type); feasibility over `ENum` |
| C52 | Profit oracle: round robin is exhaustive and cannot reach the unreachable arm | profit oracles, any number type | counter invariants |
| C53 | Profit oracle: cuts are valid | profit oracles over `RNum` | convexity of log-sum-exp via `exp x >= 1 + x`; witness for negative gamma |
| C54 | Profit oracle: gamma is the profit of the reported point and never decreases | profit oracles with the driver | `RNum` for single queries, any number type for runs |
| C55 | Robust profit oracle uses the worst elasticities | robust profit oracle over `RNum` | sign analysis |
| C56 | Quantised profit oracle evaluates integer points, but shifts the cut the wrong way | quantised profit oracle over `RNum` | case analysis; witness |
| C57 | The SVM oracle reports the minimum margin, but always as an improvement | SVM oracle over `ENum` and `FNum` | loop invariant; witnesses by computation |
| C58 | The max-cut oracle evaluates the rounded cut | max-cut oracle over `RNum` | double loop invariant |
| C59 | The max-cut oracle's cuts are not valid cuts | max-cut oracle over `RNum` | double loop invariant |
| C60 | Quasi-convex example oracle | quasi-convex oracle over `RNum`; decisions for any number type | convexity of exp; witness |
| C61 | Linear example oracles | example oracles over `RNum`; decisions for any number type | exhaustive case analysis of the round robin |
| C62 | Power iteration returns the Rayleigh quotient of a unit vector | power iteration over `ENum` | loop invariants; simulation of the extended reals by real vectors (`PowerOps.v`) |
| C63 | power_iteration3 leaves x unnormalised when it runs out of iterations | power iteration over `ENum` | loop invariants; simulation of the extended reals by real vectors (`PowerOps.v`) |
| C64 | Eigenvectors are fixed points of power iteration | power iteration over `ENum` | loop invariants; simulation of the extended reals by real vectors (`PowerOps.v`) |
| C65 | Conjugate gradient answers are solutions | conjugate gradient over `ENum` | residual invariant; binary64 witness |
| C66 | Conjugate gradient terminates within n steps on positive definite systems | conjugate gradient over `ENum` | orthogonality and conjugacy invariants; n+1 orthogonal nonzero vectors do not exist |
| C67 | Conjugate gradient fails on an exact initial guess | conjugate gradient over `ENum` | residual invariant; binary64 witness |
| C68 | A feasibility run on EllStable can report no solution for a feasible problem | `EllStable` and driver over `FNum` | kernel computation |
| C69 | A cut without effect fills EllStable with NaN | `EllStable` and driver over `FNum` | kernel computation |
| C70 | What the optimiser reports on the example oracles is feasible and gamma is its objective | driver and example oracles, any number type and space | C03 plus C61 |
| C71 | The example filter problem of the repository has no solution | `create_lowpass_case` over `ENum`, `FNum` | bounds on pi; computation |
| C72 | Variants 2 and 3 report the same value and count | power iteration over `ENum` | loop invariants; simulation of the extended reals by real vectors (`PowerOps.v`) |
| C73 | Early stop means approximate eigenpair, for the direction test only | power iteration over `ENum` | loop invariants; simulation of the extended reals by real vectors (`PowerOps.v`) |
| C74 | The value never falls below the start on positive semidefinite matrices | power iteration over `ENum` | monotonicity of Rayleigh quotients by Cauchy-Schwarz for semidefinite forms |
| C75 | Power iteration terminates and converges with a dominant eigenvalue | power iteration over `ENum` | geometric decay of the component orthogonal to the dominant eigenvector |
| C76 | Power iteration panics exactly on shape mismatch | power iteration, any number type | case analysis |
| C77 | Conjugate gradient answers improve on the start | conjugate gradient over `ENum` | energy decreases in each step |
| C78 | Conjugate gradient answers are optimal over the Krylov space | conjugate gradient over `ENum` | the error is conjugate to the Krylov space |
| C79 | Conjugate gradient panics exactly on misfitting shapes | conjugate gradient, any number type | case analysis |
| C80 | A run of the optimiser that stops on a rejected cut has proved optimality | drivers and `Ell` over `RNum` | as C27 |
| C81 | With default options the drivers solve the crate's example problems | drivers, `Ell`, example oracles over `RNum` | C28, C29 with explicit balls next to the optimum; bound on the logarithm |
| C82 | The LMI feasibility search finds a strictly feasible point or proves there is none | LMI oracles, `cutting_plane_feas`, `Ell` over `RNum` | C44, C45 (with the witness vector) put into C27 and C28; margin instead of a gradient bound |
| C83 | The profit problem is solved to any accuracy by a whole run | profit oracle, `cutting_plane_optim`, `Ell` over `RNum` | depth of every cut at an interior point: ln w <= w - 1; then C29; the test data become polynomials in e^(y0/10), e^(y1/5) |
| C84 | The robust profit problem is solved to any accuracy by a whole run | profit oracle, `cutting_plane_optim`, `Ell` over `RNum` | depth of every cut at an interior point: ln w <= w - 1; then C29; the test data become polynomials in e^(y0/10), e^(y1/5) |
| C85 | A discrete optimisation never loses a better design | `cutting_plane_optim_q`, `Ell` over `RNum` | C14, C15 lifted through the loop: the ellipsoid is valid and contains the better designs, or there are none |
| C86 | Binary search over feasibility problems finds a nearly best point | `bsearch`, `BSearchAdaptor`, `cutting_plane_feas`, `Ell`, example 3 over `RNum` | loop invariant of bsearch with an inexact oracle; each probe by C28; recentred discs still contain the triangle |
| C87 | The portfolio example reports an admissible portfolio, but gives up at the first one that is not better | portfolio oracle, drivers over every number type, `RNum`, `FNum` | evaluation of the oracle; convexity of the quadratic form; C80; kernel computation for main |
| C88 | Minimising a sum of squares with the oracles of the tests converges, although each cut also removes better points | least-squares oracles of the tests, whole runs on `Ell` over `RNum` | Cauchy-Schwarz gives the factor 4; C29 with the margin bound |
| C89 | Runs on cuts at or beyond the centre meet no division by zero, negative root or infinity | drivers, `Ell`, example and profit oracles over `ENum` against `RNum` | simulation of loop bodies; definedness of each update (`ExtDefined.v`) |
| C90 | Starting an optimisation from an infinite level works | drivers, `Ell`, example and least-squares oracles over `ENum` | C89 plus a threshold level for the finitely many answers before the first success; C81, C88 |
| C91 | Rounding never makes kappa negative | `EllCalc`, `Ell`, drivers and oracles over `FNum`, every libm | sign lemmas for the rounded operations (`FloatSign.v`), formulas (`KappaSign.v`), loop invariants (`KappaRun.v`), oracles (`KappaOracles.v`) |
| C92 | Equality of arrays, full and from_fn, arithmetic with a scalar | `Arr` over `FNum`, `RNum`, any number type; `ell_from_covariance` | case analysis on floats, list induction |
| C93 | Lowpass designs: the optimiser beats every filter that has room to spare | LowpassRunSpec.v (cut_row, slack) on top of Lowpass.v over the extended reals | LowpassRun.v, LowpassDesign.v: a real oracle with the same answers, bounds of RunProofs.v, transfer by ExtTest.v |
| C94 | A run on an ellipsoid panics only if the oracle does | drivers and Ell of C01-C26 | RunTotal.v (loop invariant), RunTotalEx.v (each oracle) |
| C95 | What switching parallel cuts off does | the calculator of EllCalc.v with the public field use_parallel_cut set by hand (CalcFlag.v) | case analysis over any number type; the switch only chooses between the pair formula and the first cut |
| C96 | Each cut gives the smallest ellipsoid that holds what it keeps | Ell updates over the reals (Ell.v, EllRun.v); vol2 = kappa^n det mq (Det.v) | n^n det P <= det Q tr(Q^-1 P)^n (TraceDet.v, by LDL^T and AM-GM with its equality case) applied to the rim points of the kept slice (OptVol.v, OptCuts.v); witness on the unit disc (OptEx.v) |
| C97 | The quasi-convex example is solved by a whole run | qcvx_assess (Examples.v), the optimiser and Ell over the reals | C29 and C80 with beats = feasible and at least gamma; a ball of radius r above a feasible point is feasible and worse by at most 4 r; e^l >= e^(1/2)(1 + l - 1/2) bounds the value and the place of the optimum |
| C98 | The cut calculators are accurate in binary64 | EllCalc.v over binary64 (Flocq), AccSpec.v | relative error calculus (FloatRel.v), AccProofs.v |
| C99 | What factor's Boolean means in binary64 | Ldlt.v over binary64 (Flocq), LdltAccSpec.v | error analysis of the row recurrences (FloatErr.v, LdltErr.v, LdltRej.v), link to the stored numbers in LdltAcc.v |
| C100 | Accuracy of inner, matrix-vector and outer products, sums and rank-one updates in binary64 | a_sum, a_outer, a_rank_one_update; Arr.v over binary64 (Flocq) | running error bound of the accumulation (FloatErr.v), KernAcc.v |
| C101 | One ellipsoid step in binary64 loses nothing beyond a small slack | Ell.v, EllCalc.v over binary64 (Flocq); conditions, slack and conclusion in StepAccSpec.v | exact perturbation theorem for one step (StepErr.v), relative errors of rho, sigma, delta (StepRel.v, C98), rounding of every entry (StepAcc.v), cut kinds (StepCuts.v) |
| C102 | One ellipsoid step in binary64 shrinks the volume | Ell.v, EllCalc.v over binary64; fvol2 and step_shrinks in StepAccSpec.v | Loewner monotonicity of the determinant and the exact volume factor (StepAcc.v) |
| C103 | The drivers apply exactly the cuts the oracle asks for | CuttingPlane.v, Ell.v over any Num; inductive description of a run in StepRunSpec.v | loop invariant (StepRun.v) |
| C104 | Whole runs in binary64 lose nothing beyond an explicit excess, and shrink geometrically | CuttingPlane.v, Ell.v, EllCalc.v over binary64; conditions on the run in StepRunSpec.v | induction over the cuts from C101 and C102, then C103 (StepRun.v) |
| C105 | The quasi-convex oracle of the integration test (maximise sqrt(x)/y over exp(x) <= y, x >= 0) | Qcvx2.v (the oracle), Qcvx2Spec.v (problem, best value, the event x = 0) | Qcvx2Run.v: decisions for any Num; each answer is a tangent of a convex function; a run that never meets x = 0 is a run of a repaired oracle, to which the margin version of C29 applies; Qcvx2Ex.v: the binary64 run is computed |
| C106 | What the LMI oracle's answers mean in double arithmetic | Lmi.v, Ldlt.v in binary64; LmiAccSpec.v (the problem without rounding, the box, the tolerance) | LmiErr.v: what the computed rows and the computed witness say about the exact matrix; LmiAcc.v: errors of the entries and of the quadratic forms; LmiMain.v: both answers; LmiAccEx.v: the matrices of the repository test |
| C107 | The feasibility driver with the LMI oracles in double arithmetic | the driver of CuttingPlane.v with Lmi.v and Ell.v in binary64 | LmiAccRun.v: the cuts of C106 are satisfied along the sequence of C104; LmiRunEx.v: a computed run |
| C108 | What the homogeneous LMI oracle's answers mean in double arithmetic | lmi0_oracle.rs in binary64 (Lmi.v) | LmiZero.v: negating a binary64 number commutes with products, so the oracle is the one of C106 with zero B and negated matrices, up to signs of zeros in the gradient; LmiZeroEx.v: computed cases |
| C109 | One step with a pair of parallel cuts in double arithmetic | Ell.v, EllCalc.v over binary64 (Flocq); exact numbers, thickness, slack and conclusion in ParAccSpec.v | exact geometry of the slab (ParGeom.v), rounding of the kernel (ParKern.v), the perturbation theorem of C101 for thin slabs (StepErr.v, StepPar.v), kinds of pairs (ParCuts.v), ParEx.v: computed cases |
| C110 | Sequences of pairs of parallel cuts and runs with them in double arithmetic | CuttingPlane.v, Ell.v, EllCalc.v over binary64; conditions on the run in ParRunSpec.v | induction over the pairs from C109 and C101, then C103 (ParRun.v); ParRunEx.v: computed runs |
| C111 | The lowpass oracle in double arithmetic | Lowpass.v over binary64 (Flocq), CuttingPlane.v, Ell.v; specification with a margin in LowAccSpec.v | rounding errors of responses and offsets, the code-independent lemmas on the loops of C50, C110 for the run (LowAcc.v, LowAccRun.v); LowAccEx.v: computed case |
| C112 | Lowpass designs in double arithmetic: from the constructor to the answer | lowpass_new (Lowpass.v) and linspace over binary64 with an arbitrary libm; LowNewSpec.v | rounding of the band edges (an integer times a double below one rounds below the integer), the constant PI against PI (Machin series of the standard library), the errors of the angles and coefficients, transfer of the specification to nearby coefficients, C111 (LowNewAcc.v, LowDesign.v); FcosAcc.v proves the accuracy of the cosine of the example |
| C113 | The residual behind an answer of conjugate_gradient in double arithmetic | conjugate_gradient over FNum; the states of a run as a relation (CgAccSpec.v) | CgAcc.v: backward from the acceptance test every number is finite; each round moves the gap between the tracked and the true residual by at most one unit; induction on the rounds; triangle inequality |
| C114 | The profit oracle in double arithmetic: construction, one call, a whole optimisation | profit oracle and cutting_plane_optim over FNum; exp and ln arguments of assumed accuracy (ProfAccSpec.v) | ProfAcc.v: forward error of the log-revenue, the costs and the gradient; the exact cut inequality of a slightly worse market absorbs the error; ProfAccRun.v: induction over the questions of the run with the level falling at most prof_drop per answer; FexpAcc.v: a concrete exp and ln meet the accuracy |
| C115 | The robust profit oracle in double arithmetic: construction, one call, a whole optimisation | robust profit oracle and cutting_plane_optim over FNum (RbAccSpec.v) | RbAcc.v: the elasticities of a call are those of the worst market up to rounding, so C114 applies to a market within 2^-42 of it; RbAccRun.v and LevelRun.v (runs with any oracle whose level falls a little per answer) |
| C116 | The power iterations in double arithmetic | PowerIter.v over FNum (binary64), Arr kernels | PowAcc.v: rounding-error analysis of the matrix product in the Frobenius norm, of both scalings and of the 1-norm test; PowAccRun.v: loop invariants; Pow3.v: the runs of power_iteration3 and the rounding of its Rayleigh quotient; PowAccEx.v, Pow3Ex.v: the test matrix times ten, and the underflow witness |
| C117 | The quasi-convex example in double arithmetic | quasi-convex oracle and Ell runs over binary64, exp a parameter of given accuracy | error of each test and gradient, convexity of exp with the error as margin; run by the level-run lemma of C115 |
| C118 | bsearch in double arithmetic: bracket, number of rounds, flag | bsearch over FNum (CuttingPlane.v); vocabulary in BsAccSpec.v | BsAcc.v: error of the rounded half width and of the probe, invariant of the bracket by induction, spacing of doubles for the stuck case; BsAccEx.v evaluates the cases |
| C119 | The linear examples in double arithmetic: calls and whole runs | ex1_assess, ex1rr_assess, ex3_assess, ex4_assess over FNum (Examples.v) and the drivers; vocabulary in LinAccSpec.v | LinAcc.v: rounding of each linear test; LinAccRun.v: answers and runs, through MonoRun.v (runs whose level never falls and may be minus infinity); LinAccEx.v evaluates runs of two rounds |
| C120 | LDLTMgr::sqrt in double arithmetic | ldlt_factor, ldlt_sqrt over FNum (Ldlt.v) | LdltSqrtAcc.v: row errors of LdltErr.v/LdltAcc.v for the factorisation, relative error of the root of each pivot, Cauchy-Schwarz weighted by the diagonal; LdltSqrtEx.v evaluates a case |
| C121 | linspace and arange in double arithmetic | linspace, arange over FNum (Arr.v) | LinspaceAcc.v: one rounding error per operation, monotonicity of rounding for the order, rounding of integers for the count; LinspaceEx.v evaluates the counterexamples |
| C122 | Round-robin oracles starve no constraint | ex1rr_assess, ex3_assess, ex4_assess, qcvx_assess, profit_assess, profit_rb_assess, profit_q_assess, qc2_assess (Examples.v, Profit.v, Qcvx2.v), any number type | RobinProofs.v: case analysis of one call against the cyclic order of RobinSpec.v, then induction on the distance to the constraint |
| C123 | The lowpass oracle goes through its bands in turn | the three loops of assess_feas with their counters, any number type | first bad frequency in cyclic order per band; fairness by induction on the distance of the counter |
| C124 | The SVM oracle in double arithmetic | svm_assess over binary64 | error bound of one margin from the bound of the inner product; exact products with the labels; running minimum over finite numbers |
| C125 | The max-cut oracle in double arithmetic | maxcut_assess over binary64, with the driver | whole numbers up to 2^53 are added exactly; loop invariants as in C58; the driver lemma of C58 |
| C126 | The discrete profit oracle in double arithmetic | profit_q_assess of Profit.v over FNum; whole_near, log_whole and q_shift in ProfQAccSpec.v | the call of C114 with bounds on gradient and offset, Bnearbyint for the rounding to whole amounts, and an error bound for the moved offset |
| C127 | Which calls of the LDLT manager panic depends on the last verdict alone | Ldlt.v over any Num; mgr, do_ops and reads of LdltSpec.v, judged in LdltPanic.v | the invariant of the manager (C39) and the total forms of factor, witness and sqrt |
| C128 | The quasi-convex oracle of the integration test in double arithmetic | qc2_assess (Qcvx2.v), cutting_plane_optim on Ell over FNum | Qc2Acc.v: rounding analysis of the five outcomes; the tangent of the square root and of exp for the cuts; Qc2AccRun.v through the run theorem of LevelRun.v; Qc2AccEx.v a concrete run |

Properties that are false of the code are kept in view: the true part is
proved with its exact conditions, and the failure is a theorem ending in
`_refuted` with a concrete witness.

## Mutation tests

`seeded/LOG.jsonl` records edits of the model in a scratch copy, the claim
each one breaks and the theorems that stopped proving; where none did, the
theorem that was added or tightened.

## Assumptions of each theorem

D = `ClassicalDedekindReals.sig_forall_dec`, N = `ClassicalDedekindReals.sig_not_dec`,
F = `FunctionalExtensionality.functional_extensionality_dep`, C = `Classical_Prop.classic`.

**None (closed under the global context)**

* `Prop_Arr.v`: C34_binary, C34_dot, C34_dot_mv, C34_outer, C34_rank_one_update, C34_copy_from, C34_row, C34_from_shape_vec, C34_access, C34_access_alias, C35_row, C35_binary, C35_elementwise
* `Prop_ArrEq.v`: C92_shape, C92_full, C92_from_fn, C92_scalar
* `Prop_ArrMore.v`: C34_write, C34_write2, C34_access_more, C35_copy_from, C35_from_shape_vec, C35_rank_one_lower
* `Prop_Asked.v`: C103_feas, C103_optim, C103_q
* `Prop_Cg.v`: C79_panics
* `Prop_Drivers.v`: C01_feas_answer, C02_feas_gave_up, C02_feas_panics, C02_feas_calls, C03_optim_last_improvement, C04_gamma_paired, C05_optim_q_retry, C06_probe, C06_probe_sequence, C08_bsearch_interval_untouched, C08_bsearch_panics
* `Prop_Ell.v`: C21_rejected_unchanged, C22_bitwise_symmetric, C22_C26_sequences
* `Prop_Examples.v`: C61_example1_tests, C61_example4_tests, C61_example3_tests, C61_example3_update, C61_rr_same, C60_quasicvx_tests, C70_example1, C70_example1_rr, C70_example4
* `Prop_Ldlt.v`: C42_factor_history, C42_semi_history, C42_outside_kept
* `Prop_LdltPanic.v`: C127_total, C127_panics, C127_new
* `Prop_Lmi.v`: C44_new, C46_old_same, C47_new
* `Prop_Lowpass.v`: C48_panics, C48_wrong_shape, C49_exhaustive_any, C51_run_any
* `Prop_LowpassRun.v`: C94_feas, C94_optim, C94_optim_q, C94_bsearch, C94_oracles
* `Prop_Opt.v`: C95_bias, C95_quantised, C95_central, C95_default_on, C95_single
* `Prop_Portfolio.v`: C87_reports
* `Prop_Power.v`: C76_panics
* `Prop_Profit.v`: C52_new_ok, C52_exhaustive, C54_run_any, C55_new
* `Prop_Qcvx.v`: C97_reported
* `Prop_Qcvx2.v`: C105_reported
* `Prop_Robin.v`: C122_example1_rr, C122_example4, C122_quasicvx, C122_example3, C122_profit, C122_example1_rr_fair, C122_example4_fair, C122_quasicvx_fair, C122_profit_fair, C122_robust, C122_robust_fair, C122_quasicvx2, C122_quasicvx2_fair, C122_discrete
* `Prop_RobinLp.v`: C123_call, C123_pass_fair, C123_stop_fair, C123_trans_fair
* `Prop_Stable.v`: C32_rejected_unchanged
* `Prop_Svm.v`: C57_always_improves, C58_new

**C, D, F, N**

* `Prop_Acc.v`: C98_central, C98_bias, C98_bias_q, C98_parallel_central, C98_rejects, C98_rejects_q, C98_accepts
* `Prop_Arr.v`: C34_elementwise_refuted, C35_dot, C35_dot_mv, C35_outer, C35_rank_one_update, C35_eye, C35_from_diag, C35_sum, C35_divide, C36_divide_refuted, C37_linspace, C37_arange
* `Prop_ArrAcc.v`: C100_dot, C100_dot_finite, C100_matvec, C100_sum, C100_sum_finite, C100_outer, C100_rank_one
* `Prop_ArrEq.v`: C92_reflexive, C92_symmetric, C92_transitive, C92_zeros, C92_exact, C92_subtract_negate, C92_add_commutes, C92_negate_twice, C92_from_covariance
* `Prop_BsAcc.v`: C118_bracket, C118_stuck, C118_flag_refuted
* `Prop_BsRun.v`: C86_bsearch, C86_adaptor, C86_example3, C86_test_problem
* `Prop_Calc.v`: C18_old_equals_new, C18_parallel_central, C18_touching, C18_central, C19_single, C19_parallel, C19_zero_width, C19_far_point, C20_dimension_one
* `Prop_Cg.v`: C65_solution, C65_limit, C65_outcome, C65_binary64_refuted, C66_terminates, C66_semidefinite, C66_symmetric_refuted, C67_exact_start, C77_energy, C78_optimal
* `Prop_CgAcc.v`: C113_answer, C113_case
* `Prop_Drivers.v`: C07_bsearch_brackets, C09_bsearch_float_inside, C09_bsearch_overflow_refuted
* `Prop_Ell.v`: C10_deep_cut, C11_nosoln_sound, C11_shallow_rejected, C11_shallow_drops_refuted, C12_q_sound, C13_central_cut, C14_parallel_bias, C14_C15_parallel_q, C14_unchecked_refuted, C15_far_side, C16_parallel_central, C23_single_stays_definite, C23_parallel_stays_definite, C24_tsq_set, C24_width_is_maximum, C25_no_defer, C26_new_with_scalar, C26_new, C26_new_with_matrix
* `Prop_Examples.v`: C61_example1, C61_example1_rr, C61_example4, C61_example3, C60_quasicvx, C60_negative_gamma_refuted
* `Prop_ExtRun.v`: C89_feas_single, C89_feas_parallel, C89_optim_single, C89_optim_parallel, C89_q_single, C89_q_parallel, C89_bsearch, C89_new, C89_oracles, C89_example3, C90_follows, C90_example1, C90_example1_rr, C90_example4, C90_squares, C90_test
* `Prop_Kappa.v`: C91_single, C91_parallel, C91_feas_single, C91_feas_parallel, C91_optim_single, C91_optim_parallel, C91_optim_q, C91_start, C91_oracles, C91_meaning, C91_tiny_refuted, C91_dimension_one_refuted
* `Prop_Ldlt.v`: C38_decides_pd, C38_decides_pd_array, C39_witness, C39_panics, C40_sqrt, C40_panics, C41_accepts_psd, C41_accepts_only_psd_refuted, C42_whole_vector_refuted, C43_nan_not_caught, C43_nan_accepted
* `Prop_LdltAcc.v`: C99_accepts, C99_rejects, C99_overflow_refuted
* `Prop_LdltSqrtAcc.v`: C120_root
* `Prop_LinAcc.v`: C119_example1, C119_example1_rr, C119_example4, C119_example3, C119_values1, C119_values1_rr, C119_values4, C119_run1, C119_run1_rr, C119_run4, C119_run3
* `Prop_Linspace.v`: C121_linspace, C121_end_refuted, C121_arange, C121_arange_empty, C121_arange_refuted
* `Prop_Lmi.v`: C43_nan_point_feasible, C44_C45_lmi, C47_lmi0
* `Prop_LmiAcc.v`: C106_answers, C106_accepts, C106_cut, C106_rejects, C106_certificate
* `Prop_LmiAccRun.v`: C107_run, C107_run_old
* `Prop_LmiRun.v`: C82_answer, C82_answer_old, C82_solves, C82_solves_old
* `Prop_LmiZero.v`: C108_answers, C108_accepts, C108_cut, C108_rejects, C108_certificate
* `Prop_LowAcc.v`: C111_feas, C111_assess, C111_run
* `Prop_LowDesign.v`: C112_new, C112_design
* `Prop_Lowpass.v`: C48_new, C48_calls, C48_empty_stop_panics, C48_nan_refuted, C49_C50_feasibility, C51_optimisation, C51_run, C71_create, C71_run, C71_test_refuted
* `Prop_LowpassRun.v`: C93_optimum, C93_certificate, C93_feasible, C93_infeasible, C93_design
* `Prop_MaxcutAcc.v`: C125_call, C125_run, C125_sides
* `Prop_Opt.v`: C96_single, C96_parallel, C96_pair, C96_below_refuted
* `Prop_ParAcc.v`: C109_calc, C109_bias, C109_q, C109_central, C109_far_bias, C109_far_q, C109_far_central
* `Prop_ParRun.v`: C110_keeps, C110_shrinks, C110_feas, C110_optim
* `Prop_Portfolio.v`: C87_answer, C87_run, C87_stuck, C87_example_refuted
* `Prop_PowAcc.v`: C116_run, C116_checked, C116_value, C116_case, C116_small_refuted, C116_value3, C116_case3
* `Prop_Power.v`: C62_returns, C62_outcome, C62_outcome2, C62_outcome4, C63_outcome, C63_normalised_refuted, C64_eigenvector, C64_dominant_refuted, C72_same, C73_residual, C73_residual4, C73_value_test_refuted, C74_grows, C75_terminates, C75_converges
* `Prop_ProfAcc.v`: C114_new, C114_assess, C114_run
* `Prop_ProfQAcc.v`: C126_call
* `Prop_Profit.v`: C53_valid_cuts, C53_new_about, C53_negative_gamma_refuted, C54_gamma_is_profit, C54_any_level, C54_run, C55_robust, C56_integer_points, C56_new_ok, C56_new_about, C56_shift_refuted
* `Prop_ProfitRun.v`: C83_near_best, C83_certificate, C83_test_problem, C84_near_best, C84_certificate, C84_test_problem
* `Prop_Qc2Acc.v`: C128_assess, C128_run, C128_too_high
* `Prop_QcAcc.v`: C117_assess, C117_run, C117_too_high
* `Prop_Qcvx.v`: C97_near_best, C97_certificate, C97_too_high, C97_test_problem, C97_default
* `Prop_Qcvx2.v`: C105_answer, C105_zero_refuted, C105_near_best, C105_certificate, C105_too_high, C105_default
* `Prop_RbAcc.v`: C115_new, C115_assess, C115_run
* `Prop_Run.v`: C27_single, C27_parallel, C28_single, C28_parallel, C29_single, C29_parallel, C29_single_margin, C29_parallel_margin, C80_single, C80_parallel, C81_example1, C81_example1_rr, C81_example4, C81_example3
* `Prop_RunQ.v`: C85_single, C85_parallel, C85_stop_refuted
* `Prop_Squares.v`: C88_oracles, C88_converges, C88_test, C88_cut_refuted
* `Prop_Stable.v`: C30_width, C30_size, C30_shape_refuted, C30_never_rotates, C31_first_cut_scalar, C31_first_cut_new, C31_axis_cuts, C31_keeps_points_refuted, C31_centre_refuted, C33_diagonal, C33_matrix_refuted, C68_feasible_missed_refuted, C69_quiet_cut_refuted
* `Prop_StepAcc.v`: C101_central, C101_bias, C101_q
* `Prop_StepRun.v`: C104_keeps, C104_shrinks, C104_feas, C104_optim
* `Prop_StepVol.v`: C102_central, C102_bias, C102_q
* `Prop_Svm.v`: C57_minimum_margin, C57_beta_refuted, C57_monotone_refuted, C57_space_nan, C58_cut_weight, C58_run, C59_valid_cut_refuted
* `Prop_SvmAcc.v`: C124_call, C124_run
* `Prop_Volume.v`: C17_factor, C17_single, C17_parallel

**D, F, N**

* `Prop_Lowpass.v`: C71_no_filter

