# Formal model of polykin — design

Target: `/repo` (HugoMVale/polykin, Python).  Prover: Rocq/Coq 8.16.1, `rocq/theories/*.v`
(logical path `Verif`).  Build: `cd rocq && coq_makefile -f _CoqProject -o Makefile && make -j4`.

## 1. How the code is modelled

* **Shallow embedding, function by function.**  Every Python function in scope becomes a Gallina
  function of the same name and branch structure, with a comment that cites file and lines.
* **Numbers.**  Python `float` is modelled by Coq's real numbers `R` (exact arithmetic, no rounding,
  no overflow).  Where NaN or infinities decide the behaviour (bounds checks, secant's NaN
  placeholder, gel-point NaN) the extended type `fl = Fin r | PInf | NInf | NaN` with IEEE/Python
  comparison semantics is used.  Consequence: theorems are about the algorithms over exact
  arithmetic; rounding error is out of scope.
* **Exceptions are values.**  `res A = Ok a | Err exn`; `exn` enumerates `ValueError`, `RangeError`,
  `ShapeError`, `TypeError`, `ZeroDivisionError`, `UnboundLocalError`, … so that "raises" is part of
  the observable result, including Python's unbound-local failure when a `for` loop body never runs.
* **Loops.**  `for k in range(n)` is structural recursion on `n : nat`; `for … else` is modelled by a
  tagged loop result.  Unbounded recursion uses fuel, and exhaustion is a distinct error value
  (`RecursionError`) that theorems rule out or exhibit.
* **numpy.**  A vector of length N is a function `nat -> R` used on `i < N` (or a list where the
  length is data), a matrix is `nat -> nat -> R`, sums are `sumn N f`.  Broadcasting is unfolded by
  hand in the model.
* **External numerics** (`np.linalg.solve`, `lstsq`, `scipy.linalg.qr*`, `np.roots`, special functions)
  are either implemented and proved (polynomial roots: existence by the intermediate value theorem)
  or appear as explicit arguments (oracles) of the model; theorems then hold for every oracle or for
  every oracle meeting a stated specification.  They never appear as axioms.
* **State, caching, aliasing.**  Objects with caches are records plus a memo table, with `step`
  functions for assignments/queries; theorems quantify over lists of operations.  numpy aliasing is
  modelled by an explicit heap (`loc -> matrix`) for the constructor properties.
* **User callbacks** (function whose root is sought, K-value models, right-hand sides) are universally
  quantified functions, hence pure; callbacks with side effects or raising exceptions are not modelled.

## 2. File layout

`Prelude.v` (exceptions, extended reals, finite sums), then per area `XModel.v` (definitions only),
`XProofs.v` (lemmas) and `XProps.v` (only final `Theorem`s `C..`, the non-vacuity `Example`s next to
them, and `Print Assumptions`).

`IvTac.v` is a verified fixed-point interval arithmetic (integer bounds scaled by 2^p; + - * / ^ sqrt
exp ln Rpower PI) with the tactic `iv_num p k` that proves closed numeric inequalities; it adds no
axioms.  `Doc*Examples.v` use it to check the models against the code base's own documentation: for each
docstring example the exact value of the model is proved to lie in the range that rounds to the printed
number.  `TestExamples.v` does the same for published values in the test suite (activity coefficients,
equations of state, DIPPR equations, Tait).  These are validation of the model (Examples, not claims in the manifest).

`QuadModel.v`/`QuadProps.v`: fallback moments and cdfs that a distribution inherits (C124); `mpmath.nsum` is the exact sum over the integers of the closed range.
`CaseProps.v` and `Case2Props.v` to `Case23Props.v` hold concrete cases (Examples) that meet the hypotheses of
theorems whose own file has none: binary mixtures, real compounds, small polymer systems, pipes and valves.
`OracleProps.v` shows that the specifications put on external routines can be met for every order: the
triangular solve, the Cholesky factor and its update (C96), and the gamma function of C20 and C66.
`QrProps.v` adds the QR factorisation of every matrix (by reflections), an update that keeps the factors
orthogonal and triangular (C96), and both eigenvector conventions for every symmetric 2x2 matrix (C98).
`QuantProps.v` does the same for the quantile functions of the geometric, Poisson, log-normal and exponential laws.
`TightProps.v` holds statements added after mutation rounds (the data set constructors and their column names);
`Tight2Props.v` likewise (adding a mixture to itself, accepted reactivity ratios, number of plotted points),
and `Tight3Props.v` (the damped update of the equilibrium ratios).

## 3. Trusted base

* Coq 8.16.1 kernel; no plugins, no user axioms, no functors.
* Axioms of the standard library reals as printed by `Print Assumptions` for each theorem:
  `ClassicalDedekindReals.sig_forall_dec`, `ClassicalDedekindReals.sig_not_dec`,
  `FunctionalExtensionality.functional_extensionality_dep`, and `Classical_Prop.classic` (through
  the real-analysis part of the standard library).  Section 6 records the listing.
* The faithfulness of the hand translation from Python (comments cite the lines), and the
  abstractions of section 1: exact reals instead of doubles, pure callbacks, hand-unfolded numpy
  broadcasting.

## 4. Modelled / not modelled

Modelled modules: `utils` (validators, conversions, `add_dicts`, `enforce_symmetry`), `math/roots`
(scalar solvers; vector solver control skeleton), `math/fixpoint`, `math/derivatives`, `math/misc/filters`,
`distributions` (analytical families, blending, moment utilities), `kinetics` (Arrhenius, CLD models),
`copolymerization` (binary/multicomponent formulae, terminal/penultimate models, FR fit, labels),
`stepgrowth/solutions`, `thermo/flash/vle`, `thermo/acm`, `thermo/eos`, `properties` (mixing rules, Tait,
equations, transport correlations, Vrentas-Duda), `reactors/rtd`, `flow` (friction, rheology, relief valves), `hmt`
(diffusion profiles and uptakes, composite, walls, Nusselt correlations), `math/special` (roots of x tan x and x cot x).
The caches of `math/special` with the arrays they share, and the argument conversion of the EoS constructors.
Also `math/misc/jcr` (confidence ellipse and region), with the quantiles and the eigenvalue routine as arguments.

The computed content of the plots of the distributions (ranges, points, curves and their effect on the objects), of the property equations and of the copolymerization models.

Text representations (TextModel.v) with the digits of formatted numbers as arguments.

Not modelled: the drawing itself, axis labels, the number formatting of Python, the inside of scipy's `curve_fit`, ODR,
ODE and quadrature routines (they are arguments with a stated specification), the laws of the random generators,
Monte-Carlo data, docs.

## 5. Per property plan

| id | model and proof idea |
|----|----------------------|
| C01 | `check_bounds` over `fl`; three-way branch (number / ndarray / iterable); iff by case analysis + induction on the list; 2-D arrays fall through to the iterable branch: refutation of the RangeError part. |
| C02 | Units as strings; iff characterisation over `fl` lists; warnings are outputs, not errors. |
| C03 | Brent loop as recursion on `maxiter` with full state `(xa,fa,xb,fb,xc,fc,d,e,bound?)`; invariant `fa=f xa, fb=f xb, fc=f xc`, sign condition after reordering; continuous case by IVT. |
| C04 | Same loop with evaluation trace; invariant: all of xa,xb,xc in the hull; the acceptance test `2p<3mq-|tol1 q|` implies the step stays between xb and xc; `d`/`e` as options (unbound local). |
| C05 | Newton loop; complex function as pair of real functions; case analysis by induction. |
| C06 | Secant loop with `fl` result; success/failure by induction; refutation: zero first slope gives NaN. |
| C07 | Wegstein over vectors (functions on `i<N`), inf-norm as fold of max; affine exactness by unfolding three iterations. |
| C08 | Anderson with oracle for the QR/lstsq coefficients (may fail); induction; refutation for `maxiter=1`. |
| C09 | Control skeleton of `rootvec_qnewton` with line search; refutation witness on a failing line search. |
| C10, C11 | Direct algebra over `R`, functional update for perturbed vectors; exactness for all N via finite sums. NdiffProps.v: truncation errors for functions with bounded higher derivatives, by bounding the remainder and its derivatives from the innermost outwards. |
| C12 | Fold of min/max over list; positivity by induction. |
| C13, C14 | Step functions as in code; exactness by induction on the number of steps; backward refutation. RkProps.v: error of one step by Taylor bounds (for order 4 with a calculus of functions of order h^k), then the discrete Gronwall argument. |
| C15 | Fuelled recursion with measure; subsequence, endpoints and tolerance by strong induction on length. |
| C16, C17 | Object state = parameters + memo table; `step`; invariant "memo entries equal recomputation"; induction over histories. |
| C18 | Closed-form moments, algebra (`nra`/`field`), exponential/Gamma facts for log-normal and SZ. |
| C19, C20 | Geometric / exponential series: partial sums closed forms by induction, limits by `is_lim_seq`/`is_series` (Coquelicot). |
| C21 | Unfolding of the unit handling. |
| C22, C23 | Mixture as association list (dict with identity keys); `add_dicts` with/without in-place update on a heap; refutation of purity. |
| C24 | Binomial convolution as finite sums; commutativity by reindexing; spec: moments of sum of independent finite variables. |
| C25 | `Rpower` algebra. |
| C26 | Record operations; evaluation homomorphism with `exp` algebra. |
| C27 | `Rpower` monotonicity. |
| C28–C31 | Rational function algebra, stationarity equations. CopoAzeoProps.v: the azeotropes of the penultimate model are zeros of a cubic. |
| C32 | `np.linalg.lstsq/solve` as oracle with spec "solves the linear system"; uniqueness by absolute-value contraction for positive matrices. |
| C33 | Tuples by induction on length. |
| C34 | Exponential algebra for all N. |
| C35 | Least squares line on exactly collinear points: normal equations. |
| C36 | Label algebra + history induction; constructor and column names by case analysis (`TightProps.v`). |
| C37–C39 | Rational identities against a separate stoichiometric / recursive specification; Case_5 refutation; inequality by `nra`; gel branch via `fl`. |
| C40, C41 | RR residual as finite sum; derivative by `is_derive` on sums; bracket invariant by induction; flash balance algebra. |
| C42–C45 | Excess Gibbs energy of mole numbers `n` as finite sums; `is_derive` of `n*gE` w.r.t. `n_i` equals the coded `ln gamma_i`. |
| C46–C48 | Polynomial/rational identities, IVT for existence, `is_derive` for P=-dA/dV; refutation for `phi` with `k=0`. |
| C49 | Memo keyed by T not attributes; refutation by a two-step history; positive part when attributes are unchanged. |
| C50, C51 | Heap of matrices; in-place `fill_diagonal`/`enforce_symmetry`; refutation of purity; symmetric result theorem. |
| C52, C53 | Weighted-mean inequalities over finite sums; double-sum rearrangement. |
| C54 | `is_derive`. |
| C55 | Evaluation at anchors. |
| C56 | `is_derive`; tanks in series for all N by induction over the truncated exponential series (regularised Gamma for integer N). |
| C57 | Algebra with the laminar branch; sign and limit lemmas. |
| C58 | Refutation at the sphere centre; positive bounds for the single-term formulae where provable. |
| C59, C60 | Algebra and monotonicity; mean value theorem for `Nu_plate` and the WLF pole. |
| C61 | Lagrange interpolation through three points over every Brent state. |
| C62, C63 | Line search as recursion on `maxiter` with its trace; cubic model by `is_derive`; dogleg root of the quadratic. |
| C64, C65 | Lists of shapes / strings; iff by induction. |
| C66 | `is_derive` with erf, gamma as arguments specified by derivative and recurrence. |
| C67 | Partial sums of the Gold series, limits of series; shape tag for scalar input; remainder of the exponential series at negative arguments (induction on derivatives) for non-negativity and the tail sum; induction on the tail loop for growing terms; exact integer arithmetic for the two numerical witnesses. |
| C68 | Improper integrals of Laguerre polynomials by integration by parts. |
| C69 | Bessel function as argument with its three-term recurrence. |
| C70 | Reaction classes as records with unit counts; AttributeError of `species()`. |
| C71 | `exp`/`ln` algebra. |
| C72 | Radical-weighted sums against the kinetic scheme (own balance equations). |
| C73, C75 | Exact solutions of the coded right-hand side (`is_derive`), constants of motion, invariant sets. |
| C74 | Mass balance; value at zero conversion. |
| C76, C77 | Jacobian columns, `LinAlg` elimination facts, objective functions compared. |
| C78–C80 | Flash loops with traces: what `converged` means, NaN propagation in log space, empty selections. |
| C81 | `gE` models and complex-step entropy: remainder bound for Flory-Huggins, limit for the other models. |
| C82 | Class abstractness and indexing errors as `res` values; conversions by finite sums. |
| C83 | Departure functions from `DA` by `is_derive`. |
| C84 | Wegstein loop on ln P with a cubic-root oracle; one-root region gives K = 1 and the guess back. |
| C85 | Domain analysis of real powers: iff conditions. |
| C86 | Fit function with a mutable parameter dictionary (explicit state), last evaluation versus optimum. |
| C87, C88 | Algebra of correlations, monotonicity, positivity and their exact regions. |
| C89 | Closed forms at the ends, sign of (1 - w1)^2 (1 - 2 X w1). |
| C90 | Piecewise correlations: continuity, monotonicity, jumps at the switches. |
| C91 | Roots by the intermediate value theorem per branch; Newton loop started at the coded guess. |
| C92 | Haaland and Colebrook: contraction of the Colebrook map, Newton monotone from above for a convex decreasing function. |
| C93 | Force balance strictly monotone in the velocity; Newton trajectory of `vt_sphere` for colloids. |
| C94 | Isentropic flow function psi, its single maximum; liquid iteration is a contraction with factor 3/4 in ln A. |
| C95 | Flux of the omega method: h(eta) strictly increasing gives one maximum; closed form 1/(1+sqrt(1-c/es)) of the subcooled ratio. |
| C96 | Orthogonality as two sums; adjoint identity (A^T u).v = u.(A v); quadratic form of R^T R + delta; Cauchy-Schwarz for the least change. |
| C97 | Bessel's inequality on [0, 1] by primitives (the derivative of the gap is a square); orthogonality of cos(b x), sin(b r) from the root equations; the fifth term of the series pays for the error of the computed roots. |
| C98 | Spectral decomposition from the specification of eigh; cos and sin of arctan; both inclusions between the patch and the ellipse; concrete rotation as witness. |
| C99 | NaN-aware secant loop, reduced to root_secant on finite values; convexity of e^(2x) bounds the secant step from both sides, a potential counts the iterations; three explicit iterations for the stall. Near the boundary the local secant theorem of C113 (slopes of e^(2x) within 0.15 of the root vary by e^0.6), reached after three explicit steps from 0.63 rho; induction over consecutive directions with the previous radius as guess; for the ellipse the ratio of neighbouring radii is bounded through the discriminant of the form. |
| C100 | Spline as an argument with the properties of an interpolating spline, shown consistent by the interpolating polynomial; Riemann integrals of powers times the spline; moment inequalities from integrals of squares; a cubic through four points with a negative integral for the finding. |
| C101 | Generators as arguments returning the variate; events of the rounded variate; tail sums (geometric series) for the mean; erf bounds for the default range of a narrow distribution. `QuantProps.v` builds the assumed quantile functions (least integer by linear search, inverse error function by the intermediate value theorem), so the laws hold of concrete generators. |
| C102 | The optimiser as a list of evaluation points and a success flag; the components are overwritten at each evaluation; constraint rows evaluated as dot products. |
| C103 | Lists for the state and rate vectors, identity numbers for objects; the balance of each chain length summed with weights 1, n, n²; induction on permutations for the order; an inductive predicate for the systems that can be built. |
| C104 | solve_ivp as an argument returning trajectories, with its check of the evaluation points modelled; clipping as a projection onto the nonnegative numbers; explicit trajectories as witnesses. |
| C105 | Optimisers, integrator, inverse, quantiles and eigenvalue routine as arguments with contracts; inversion of a successful run; uniqueness of the 2x2 inverse; one rational data set with a regular difference Hessian. Quadratic S: covariance computed exactly (C76), then C99_ellipse with the guess sqrt(C00) t; circular S with a small t / sqrt(2F): C99_stall, instantiated with the closed quantiles of two degrees of freedom. |
| C106 | Cache as memo table from keys to positions in a heap of arrays; invariant relative to the set of arrays never assigned to; refutation from the bounds on the eigenvalues of C97. |
| C107 | Heap of shaped arrays; conversion appends, arrays keep their position; the three outcomes from C64; frame argument for later assignments; set of elements read by the mixing loop. |
| C108 | The 28 rows as exact decimals; one lemma bounding volume, expansion and compressibility from end-point data (exponential bounded by rational functions), instantiated by a numeric certificate per row; monotonicity from the derivatives of C54; table cache as a state machine. |
| C109 | Triple root by comparing coefficients, existence by the intermediate value theorem on an interval of width 1e-5, uniqueness by factoring; isotherm from the exact pressure formula of C46; remaining parts by monotonicity of powers and square roots. |
| C110 | Objects with their cached range array on an explicit heap; a plot returns the new heap and the figure. What a caller can see of the heap is an equivalence; every plot outside the widening case preserves it and the figure depends only on it; induction over the number of widening plots for the growth; Bernoulli's inequality for the width of the Flory range. |
| C111 | Ranges are extended reals, so that infinite ends are exact; the constructors of all equation types return an object whose call is compared with the textbook formula; the plot is the list of its points and its content is proved point by point (order, ends, inverse of the abscissa). |
| C112 | The plot is the list of lines and point sets drawn; the loops over the data sets are a recursion in the error monad; a data set is read through the modelled getvar, and exchanging the monomers is shown to commute with each loop. |
| C113 | Newton and secant: induction over the remaining iterations with the distance to the root, measured in units of tolx, as the bound; quadratic step from the chain of iterates (C05). Wegstein: scaled maximum norm, each step contracts by |q| + |1 - q| L. The counterexample is an odd piecewise linear map over Q(sqrt 5) with a four-cycle of the secant iteration; invariance of the set of consecutive pairs. Local secant theorem: the error is multiplied by 1 minus a ratio of two slopes, at most M/m - 1. |
| C114 | Rational bounds for ln 10, ln 0.7 and sqrt 0.3 (LnBounds: two-sided series of ln((1+t)/(1-t))) turn the published coefficients into the identity ln(P(0.7 Tc)/Pc) = -(1 + w) ln 10 up to an explicit error. |
| C115 | Signs of the numerator and denominator of Vetere's formula; differences of the Kistiakowsky-Vetere entropies in 1/M factor as Tb times a quadratic in Tb whose sign is decided (negative discriminant for acids and alcohols). Counterexample by evaluation. |
| C116 | Lines of a string (split) distribute over newline-joined concatenation; every attribute contributes a known block of lines; blocks are recovered from left to right because attribute names do not start with a blank. Number formatting is an argument. Results of the solvers: the rows without a label colon in column 8 belong to the preceding value. |
| C117 | Z1 > 0 by a case split at Tr = 1/4; p^(m + k p^n) increases because x (1 + ln x) >= -e^-2; the supercritical branch divided by p^1.3088 has a decreasing denominator; below Tr = 0.769 the factor b is negative while 1/(1+c) is at most 1e-4. |
| C118 | Write every argument as scale times value; dimensionless groups are unchanged (`ratio_same`), comparisons scale (`Rleb_scale`), square roots and powers split; the exception cases agree because a scaled denominator is zero exactly when the original is. The axial-dispersion integral is left out. |
| C119 | alpha depends on T/Tc only (C109), a scales with t^2/p and b with t/p, so A, B and the roots of the cubic are unchanged; the correlations reduce to T/Tc, P/Pc and xi scales as t^(1/6) m^(-1/2) p^(-2/3). Witness with k = 0 supplied: the interaction sum mixes sqrt a with a. |
| C120 | d/dx ierfc = -erfc, d/dx i2erfc = -ierfc, both tails below exp(-x^2) (erfc_lower gives the sign of i2erfc); limits of the integrals by the fundamental theorem. |
| C121 | `fick` is closed under sums and multiples; erfc((c±x)/(2 sqrt F)) and exp(-b^2 F) cos(b x), sin(b x) satisfy it. Averages: telescoping sums of gi and gi2 (short times), sines at odd multiples of pi/2 (long times). Monotone: d(q gi(k/q))/dq = exp(-k^2/q^2)/sqrt pi. The joint at 1/4 uses an alternating series for erf(2) and interval arithmetic. |
| C122 | Series h(c, z) = sum z^k/(k! c(c+1)...(c+k-1)) with its contiguous relation; populations from a double series; hypothesis `bessel iv` (the power series, up to a normalisation that cancels; shown satisfiable); Li-Brooks bound by a barrier argument on the two differential equations and a polynomial inequality proved with Bernstein coefficients; monotonicity by likelihood ratios (`NbarProps`, `NbarProps2`). |
| C123 | `trunc`: terms below B/2^k give convergence and an error of at most 2B; exp(-1) <= 0.37 by interval arithmetic; MVT for differences of erfc near the centre of the sphere (`TruncProps`). |
| C124 | partial sums `sumn` against `sum_n_m` and Series; integer part bounds of `py_int`; Flory through the C19 series; derivative of RInt (`QuadProps`). The docstring's division by the moment is refuted. |

Oracles and their specifications: `np.roots` (the list of real roots; `C46_oracle` shows that a function meeting the
specification exists), `np.linalg.solve` (`solve_spec`: returns a solution whenever the matrix is regular),
`scipy.linalg` (`tri_spec`, `cho_spec`, `qr_update_spec`; instances of order one are given), `scipy.integrate.quad` (value within an error e of the integral), Bessel `iv`, `gamma`, incomplete gamma (derivative and
recurrence).  `erf` is defined as an integral in `Erf.v` and its properties are proved.

## 6. Assumption listing

Each `*Props.v` file ends with `Print Assumptions` for its theorems; see section 3 for the union.
