{"id": "C01", "title": "Bounds validation accepts exactly the closed interval", "statement": "check_bounds returns its argument unchanged exactly when the scalar, or every element of the array/iterable, lies in the closed interval [xmin, xmax] (NaN never does), and raises otherwise; a numeric argument that is rejected is rejected with RangeError.", "quantifier": "For every real/inf/NaN scalar, every 1-D or 2-D array or iterable of them, and every pair of bounds (including infinite ones).", "why_tests_cant": "The acceptance set is an uncountable box in arbitrary dimension; tests only sample a few values and dimensions.", "anchors": ["src/polykin/utils/tools.py: check_bounds, check_type, custom_error", "src/polykin/utils/exceptions.py: RangeError"]}
{"id": "C02", "title": "Temperature and pressure conversion", "statement": "convert_check_temperature / convert_check_pressure return exactly the SI value of the input (K, C, Pa, bar, MPa), raise ValueError for any other unit and RangeError for a negative absolute value, and never raise merely because the value is outside the recommended validity range; check_valid_range accepts exactly the strictly increasing pairs inside the bounds.", "quantifier": "For every temperature/pressure value or vector of values, every unit string and every validity range.", "why_tests_cant": "Infinite value domain and arbitrary unit strings.", "anchors": ["src/polykin/utils/tools.py: convert_check_temperature, convert_check_pressure, check_valid_range"]}
{"id": "C03", "title": "Brent: a reported success is a real root enclosure", "statement": "When root_brent returns success, the returned f equals f(returned x), and either |f(x)| <= tolf or there is a point c, at distance at most tolx + 4*eps*|x| from x, where f has the opposite sign or vanishes (so a continuous f has a root within that distance).", "quantifier": "For every function f, every bracketing interval, every nonnegative tolerances and every iteration limit, along every path through the bisection/secant/inverse-quadratic branches.", "why_tests_cant": "The claim is about an unbounded iteration with data-dependent branching on an arbitrary function; tests use a handful of functions.", "anchors": ["src/polykin/math/roots/scalar.py: root_brent"]}
{"id": "C04", "title": "Brent: never leaves the bracket, never crashes, bounded work", "statement": "root_brent evaluates f only at points between xa and xb, evaluates it at most maxiter+2 times (nfeval is exactly that count), raises ValueError exactly when neither end point meets tolf and both end values have the same sign, and for tolf >= 0 and maxiter >= 1 never fails in any other way.", "quantifier": "For every function f, every interval, tolerances and iteration limit.", "why_tests_cant": "An interpolation step leaving the bracket only happens for special function values at a special iteration.", "anchors": ["src/polykin/math/roots/scalar.py: root_brent"]}
{"id": "C05", "title": "Newton: success semantics and bookkeeping", "statement": "When root_newton reports success, the returned f is the value used in the stopping test at the returned x, and either |f| <= tolf or the Newton step there is <= tolx in magnitude; it performs exactly nfeval = niter <= maxiter evaluations, and x is unchanged after the last evaluation; with maxiter = 0 it does not return a result.", "quantifier": "For every complex-evaluable function, start point, tolerances and maxiter.", "why_tests_cant": "Unbounded iteration over an arbitrary function.", "anchors": ["src/polykin/math/roots/scalar.py: root_newton", "src/polykin/math/derivatives/ndiff.py: derivative_complex"]}
{"id": "C06", "title": "Secant: result consistency", "statement": "root_secant returns a pair (x, f) with f = f(x); success implies |f(x)| <= tolf or the last step was <= tolx; for an affine function with distinct guesses it finds the root in one step; a failed run still returns the last point at which f was evaluated.", "quantifier": "For every function, pair of guesses, tolerances and maxiter.", "why_tests_cant": "Failure exits (zero slope on the first iteration) need special function values.", "anchors": ["src/polykin/math/roots/scalar.py: root_secant"]}
{"id": "C07", "title": "Wegstein fixed point: success semantics and exactness on affine maps", "statement": "fixpoint_wegstein returns f = g(x) - x for the returned x, reports success exactly when the scaled infinity norm of that residual is <= tolx, evaluates g exactly niter <= maxiter times, keeps every acceleration factor inside [qmin, qmax], and for a componentwise affine map whose acceleration factors lie within the bounds it finds the exact fixed point at the third evaluation.", "quantifier": "For every map g in any dimension, every start, scaling, tolerance, wait, qmin<=qmax and maxiter >= 1.", "why_tests_cant": "Unbounded iteration, arbitrary map and dimension.", "anchors": ["src/polykin/math/fixpoint/wegstein.py: fixpoint_wegstein"]}
{"id": "C08", "title": "Anderson fixed point: success semantics", "statement": "fixpoint_anderson returns f = g(x) - x for the returned x; success implies the scaled residual is <= tolx; g is evaluated at most maxiter times; it returns a result for every maxiter >= 1.", "quantifier": "For every map g, dimension, window m, tolerance, maxiter, and every outcome of the least-squares solve.", "why_tests_cant": "Unbounded iteration over arbitrary map; the maxiter=1 corner.", "anchors": ["src/polykin/math/fixpoint/anderson.py: fixpoint_anderson"]}
{"id": "C09", "title": "Vector quasi-Newton: returned residual belongs to the returned point", "statement": "rootvec_qnewton returns x and f with f = f(x), whatever the reason it stopped.", "quantifier": "For every function, global method, and every line-search / trust-region history.", "why_tests_cant": "Only particular failure paths of the globalisation strategies violate it.", "anchors": ["src/polykin/math/roots/vector.py: rootvec_qnewton, line_search, dogleg, _update_trust_region"]}
{"id": "C10", "title": "Finite-difference derivatives are exact on their design class, with the stated error otherwise", "statement": "derivative_centered returns the exact first derivative of every quadratic and derivative_complex of every polynomial of degree <= 2; jacobian_forward returns the exact Jacobian matrix of every affine map; all for any step/scale. For any function with bounded higher derivatives, the centred derivative (and the function value returned with it) is off by at most M3/6 k^2 (M2/2 k^2), the complex-step derivative by at most M3/6 eps^2, and each entry of the forward Jacobian by at most M2/2 times its step.", "quantifier": "For every coefficients or every smooth function, every point (including 0 and negative), every step h and every nonzero scaling, any dimension.", "why_tests_cant": "Exactness for all coefficients/points/dimensions.", "anchors": ["src/polykin/math/derivatives/ndiff.py: derivative_centered, derivative_complex, jacobian_forward, scalex"]}
{"id": "C11", "title": "Numerical Hessians are symmetric and exact on quadratics", "statement": "hessian_forward (any dimension) and hessian2_centered always return a symmetric matrix, and for every quadratic form plus affine part return exactly its matrix; the input vector is left unchanged. For any smooth function the forward Hessian is off by O(h) (M h on the diagonal, M/2 (hi+hj) off it) and the centred Hessian by O(h^2).", "quantifier": "For every function (symmetry), every quadratic (exactness), every function with bounded third/fourth derivatives (error), every point and scaling, every dimension.", "why_tests_cant": "Universal over functions and dimensions; the in-place perturb/restore of the work vector is index-history dependent.", "anchors": ["src/polykin/math/derivatives/ndiff.py: hessian_forward, hessian2_centered"]}
{"id": "C12", "title": "Automatic scaling factors are positive", "statement": "scalex returns, for every vector, a vector of the same length whose entries are all strictly positive, equal to 1/|x_i| or 1/max|x| for nonzero entries; after scaling all nonzero components have magnitude at most 1 (and at least 0.1 when a common factor is used).", "quantifier": "For every real vector, including all-zero ones.", "why_tests_cant": "All vectors of all lengths and zero patterns.", "anchors": ["src/polykin/math/derivatives/ndiff.py: scalex"]}
{"id": "C13", "title": "Runge-Kutta integrator covers exactly [t0, tf] and has its nominal order", "statement": "For tf >= t0 and h > 0, ode_rk(order=1/2/4) performs floor((tf-t0)/h) full steps plus one remainder step in [0,h) ending exactly at tf; it is exact for y' = polynomial in t of degree 0/1/3 for every step size, reproduces the truncated exponential growth factor for y' = a*y, and any other order is rejected with ValueError; and for every Lipschitz right-hand side with a smooth solution the error at tf is at most a constant times h, h^2, h^4 (explicit constants for orders 1 and 2).", "quantifier": "For every right-hand side of the class, interval, step, start value.", "why_tests_cant": "Infinite families; the remainder step depends on the arithmetic relation of tf-t0 and h.", "anchors": ["src/polykin/math/derivatives/ode.py: ode_rk"]}
{"id": "C14", "title": "Integrating backwards in time", "statement": "For tf < t0 ode_rk returns the solution at tf of the initial value problem (or raises), e.g. it is exact for y' = constant.", "quantifier": "For every constant right-hand side, every t0 > tf, every step h.", "why_tests_cant": "Behaviour outside the tested direction.", "anchors": ["src/polykin/math/derivatives/ode.py: ode_rk"]}
{"id": "C15", "title": "Polyline simplification is a faithful decimation", "statement": "simplify_polyline returns a subsequence of the input that keeps both end points, and every removed vertex is within tol of the line through the two kept vertices that surround it; it terminates for every tol >= 0, and tol = 0 only removes collinear vertices.", "quantifier": "For every polyline with at least two points in any dimension >= 2 and every tolerance.", "why_tests_cant": "Recursive divide-and-conquer over arbitrary point sequences.", "anchors": ["src/polykin/math/misc/filters.py: simplify_polyline, _ramer_douglas_peucker, _farthest_point, _perpendicular_distance"]}
{"id": "C16", "title": "Distribution results never go stale", "statement": "After any sequence of DPn/PDI/M0 assignments (valid or rejected) and moment/average queries, every query returns the value a freshly built distribution with the current parameters would return.", "quantifier": "For every history of operations on a distribution object, for every distribution family with cached moments.", "why_tests_cant": "Cache bugs only show for particular operation orders.", "anchors": ["src/polykin/distributions/base.py: AnalyticalDistribution, AnalyticalDistributionP2, IndividualDistribution, Distribution", "src/polykin/distributions/analyticaldistributions.py: Flory, Poisson, LogNormal, SchulzZimm"]}
{"id": "C17", "title": "Rejected parameter assignments leave the distribution unchanged", "statement": "Assigning an out-of-range DPn, PDI or M0 raises and leaves every observable of the distribution as it was.", "quantifier": "For every distribution, every rejected value, at any point of any history.", "why_tests_cant": "Failure atomicity over all histories.", "anchors": ["src/polykin/distributions/base.py: AnalyticalDistribution.DPn, AnalyticalDistributionP2.PDI, IndividualDistribution.M0"]}
{"id": "C18", "title": "Average molar masses are ordered", "statement": "For every distribution object, Mn <= Mw <= Mz and PDI >= 1 (with the documented equality only in the monodisperse limit); the same for DPn, DPw, DPz.", "quantifier": "For every Flory, Poisson, Schulz-Zimm and log-normal parameter set.", "why_tests_cant": "Inequality over a continuum of parameters.", "anchors": ["src/polykin/distributions/base.py: Distribution.Mn, Mw, Mz, PDI, DPn, DPw, DPz", "src/polykin/distributions/analyticaldistributions.py: *._moment_length"]}
{"id": "C19", "title": "Flory distribution: pdf, cdf and moments agree", "statement": "The Flory number cdf at k is the sum of the number pdf over 1..k, the mass cdf is the partial first moment divided by the total, both increase from >= 0 to 1; the closed-form moments of order 0..4 are the sums of k^n pdf(k); the mass pdf is k*pdf(k)/DPn.", "quantifier": "For every DPn > 1 and every chain length k.", "why_tests_cant": "Infinite sums and all parameter values.", "anchors": ["src/polykin/distributions/analyticaldistributions.py: Flory"]}
{"id": "C20", "title": "Poisson, Schulz-Zimm and log-normal moments agree with their parameters", "statement": "For every admissible DPn (and PDI) the distribution's reported DPn and PDI equal the values it was built with; the Poisson closed-form moments equal the sums of k^n pdf(k).", "quantifier": "For every DPn and PDI in the allowed range.", "why_tests_cant": "Continuum of parameters and infinite sums.", "anchors": ["src/polykin/distributions/analyticaldistributions.py: Poisson, LogNormal, SchulzZimm"]}
{"id": "C21", "title": "Size-as-mass scaling", "statement": "Evaluating pdf/cdf with sizeasmass=True at M equals evaluating at M/M0 (pdf divided by M0), for every kind of distribution, and averages in mass equal averages in length times M0.", "quantifier": "For every distribution, size, M0 and kind.", "why_tests_cant": "Continuum of sizes; kinds combine with unit.", "anchors": ["src/polykin/distributions/base.py: IndividualDistribution.pdf, cdf, Distribution.Mn"]}
{"id": "C22", "title": "Blending: mixtures are mass-weighted convex combinations", "statement": "The mixture built by a*d1 + b*d2 + ... has normalised mass fractions, mole fractions summing to one, Mw = sum of mass fraction times Mw, 1/Mn = sum of mass fraction over Mn, and its mass pdf is the mass-weighted sum of component pdfs; repeated components accumulate their weights, and the result is independent of order and grouping.", "quantifier": "For every number of components, weights and component distributions.", "why_tests_cant": "Arbitrary expressions over +, *.", "anchors": ["src/polykin/distributions/base.py: MixtureDistribution, IndividualDistribution.__mul__, __add__", "src/polykin/utils/math.py: add_dicts"]}
{"id": "C23", "title": "Blending does not modify its operands", "statement": "Evaluating x + y, for any distributions x and y, leaves x and y unchanged, so a mixture can be reused in several expressions.", "quantifier": "For every pair of operands and every later use.", "why_tests_cant": "Aliasing effect visible only when an operand is reused.", "anchors": ["src/polykin/distributions/base.py: MixtureDistribution.__add__", "src/polykin/utils/math.py: add_dicts"]}
{"id": "C24", "title": "Moments of a convolution", "statement": "convolve_moments returns the raw moments of the sum of two independent variables; it is commutative and associative with unit (1,0,0,...); convolve_moments_self(q, k) equals the k-fold iterated convolution for every order.", "quantifier": "For every pair of moment vectors of any length (and every pair of finite distributions), every k.", "why_tests_cant": "All lengths and all values.", "anchors": ["src/polykin/distributions/misc.py: convolve_moments, convolve_moments_self"]}
{"id": "C25", "title": "Polymer standard conversion is an equivalence", "statement": "convert_polymer_standards maps equal hydrodynamic volume to equal hydrodynamic volume: converting to a standard and back returns the original molar mass, converting via an intermediate standard equals converting directly, and it is strictly increasing.", "quantifier": "For every positive M and Mark-Houwink parameters.", "why_tests_cant": "Continuum of parameters.", "anchors": ["src/polykin/distributions/misc.py: convert_polymer_standards"]}
{"id": "C26", "title": "Arrhenius coefficient algebra", "statement": "For rate coefficients a, b and scalar c the objects a*b, a/b, c*a, a*c, a/c, c/a and a**n evaluate, at every temperature, to the product/quotient/power of the evaluated operands; the validity range of the result is the intersection of the operand ranges; a(T0) = k0 and a is increasing in T for Ea > 0.", "quantifier": "For every pair of coefficients, scalar, exponent and temperature.", "why_tests_cant": "Law over all parameters and expression shapes.", "anchors": ["src/polykin/kinetics/coefficients/arrhenius.py: Arrhenius"]}
{"id": "C27", "title": "Chain-length dependent rate coefficients", "statement": "PropagationHalfLength gives C*kp at i=1, decays strictly monotonically towards kp, halving the excess every ihalf units; TerminationCompositeModel is symmetric in i and j, continuous at icrit, nonincreasing in chain length and equals kt11 at i=j=1.", "quantifier": "For every admissible parameter set, temperature and chain lengths.", "why_tests_cant": "Continuum of parameters and unbounded chain lengths.", "anchors": ["src/polykin/kinetics/coefficients/cldpropagation.py: PropagationHalfLength", "src/polykin/kinetics/coefficients/cldtermination.py: TerminationCompositeModel"]}
{"id": "C28", "title": "Instantaneous copolymer composition (binary)", "statement": "For r1, r2 >= 0 and 0 <= f1 <= 1 (not degenerate), inst_copolymer_binary lies in [0,1], equals 0/1 at f1=0/1, is invariant under relabelling of monomers (F1(f1,r1,r2) + F1(1-f1,r2,r1) = 1), is nondecreasing in f1, equals f1 when r1=r2=1, and equals the stationary composition of the terminal-model Markov chain given by the transition probabilities.", "quantifier": "For every r1, r2, f1.", "why_tests_cant": "Continuum of inputs.", "anchors": ["src/polykin/copolymerization/binary.py: inst_copolymer_binary, kp_average_binary", "src/polykin/copolymerization/terminal.py: TerminalModel.transitions"]}
{"id": "C29", "title": "Azeotrope detection", "statement": "azeotrope returns a composition in (0,1) with F1 = f1 whenever one exists, and None otherwise, for the terminal and the penultimate model; a penultimate model has at most three azeotropes unless every composition is one.", "quantifier": "For every r1, r2 > 0 (terminal) and all non-negative reactivity ratios (penultimate).", "why_tests_cant": "Existence statement over a continuum of parameters.", "anchors": ["src/polykin/copolymerization/terminal.py: TerminalModel.azeotrope"]}
{"id": "C30", "title": "Transition, triad and sequence statistics are probability distributions", "statement": "For the terminal model, transition probabilities from each state sum to one, the six triad fractions sum to one (up to the regularisation constant) and reduce to F1 and F2 by monomer, and the sequence-length distribution of each monomer sums to one with mean equal to the reported average length; the multicomponent versions likewise.", "quantifier": "For every reactivity ratios, composition, number of monomers and maximum sequence length.", "why_tests_cant": "Infinite sums and all parameters.", "anchors": ["src/polykin/copolymerization/terminal.py: TerminalModel.transitions, triads, sequence", "src/polykin/copolymerization/multicomponent.py: transitions_multi, sequence_multi"]}
{"id": "C31", "title": "Penultimate model degenerates to the terminal model", "statement": "When r11=r21 and r22=r12 and s1=s2=1, PenultimateModel gives the same composition, average propagation coefficient, transitions and triad fractions as TerminalModel; ImplicitPenultimateModel has the terminal composition for all s1, s2.", "quantifier": "For all parameters and compositions.", "why_tests_cant": "Identity over a continuum.", "anchors": ["src/polykin/copolymerization/penultimate.py: PenultimateModel, ImplicitPenultimateModel", "src/polykin/copolymerization/terminal.py: TerminalModel"]}
{"id": "C32", "title": "Multicomponent composition equals the Markov stationary distribution", "statement": "inst_copolymer_multi returns nonnegative fractions summing to one that are invariant under the transition matrix; for two and three monomers it equals inst_copolymer_binary and inst_copolymer_ternary; radical fractions (binary/ternary/multi) satisfy the cross-propagation balances and sum to one.", "quantifier": "For every number of monomers, every positive reactivity matrix and composition.", "why_tests_cant": "Any dimension and continuum of parameters.", "anchors": ["src/polykin/copolymerization/multicomponent.py: inst_copolymer_multi, inst_copolymer_ternary, radical_fractions_multi, radical_fractions_ternary, transitions_multi"]}
{"id": "C33", "title": "Tuple fractions", "statement": "tuples_multi returns nonnegative fractions that sum to one for every tuple length, with each pair of mirror-image tuples merged under its lexicographically smaller member, and marginalising tuples of length n+1 gives those of length n.", "quantifier": "For every number of monomers, tuple length and transition matrix with stationary composition.", "why_tests_cant": "All tuple lengths.", "anchors": ["src/polykin/copolymerization/multicomponent.py: tuples_multi"]}
{"id": "C34", "title": "Q-e scheme", "statement": "convert_Qe_to_r returns a matrix with unit diagonal whose products r_ij*r_ji equal exp(-(e_i-e_j)^2) <= 1, and satisfies the cyclic identity r12*r23*r31 = r13*r32*r21.", "quantifier": "For every list of (Q,e) values, any number of monomers.", "why_tests_cant": "Any dimension and values.", "anchors": ["src/polykin/copolymerization/multicomponent.py: convert_Qe_to_r"]}
{"id": "C35", "title": "Fineman-Ross recovers the generating parameters", "statement": "fit_Finemann_Ross applied to noise-free (f1,F1) data generated by the Mayo-Lewis equation returns exactly the generating r1, r2.", "quantifier": "For every r1, r2 and every data set with at least two distinct abscissae.", "why_tests_cant": "All data sets of all sizes.", "anchors": ["src/polykin/copolymerization/fitting.py: fit_Finemann_Ross"]}
{"id": "C36", "title": "Copolymer data sets respect monomer labels", "statement": "CopoDataset.getvar returns x for M1 and 1-x for M2 (an involution under swapping labels), rejects other names; CopoModel.add_data accepts exactly data sets with the same two monomers, in either order, and never stores a data set twice. A call of add_data that raises leaves the stored data unchanged.", "quantifier": "For every history of add_data calls.", "why_tests_cant": "State over histories of calls.", "anchors": ["src/polykin/copolymerization/copodataset.py: CopoDataset", "src/polykin/copolymerization/terminal.py: CopoModel.add_data"]}
{"id": "C37", "title": "Step-growth: number-average molar mass is total mass over number of molecules", "statement": "For each analytical solution (Case_1, 3, 5, 6, 7, 8, 9, 10, 11, Stockmayer, Flory_Af, Miller_1, Miller_2), Mn equals the total mass of reacted units divided by (number of monomer molecules minus number of bonds formed), with the amounts determined by the documented feed ratios and conversions.", "quantifier": "For every feed ratio, conversion and unit masses.", "why_tests_cant": "Identity over a continuum of parameters; the doctest values were produced by the code itself.", "anchors": ["src/polykin/stepgrowth/solutions.py: Case_1, Case_3, Case_5, Case_6, Case_7, Case_8, Case_9, Case_10, Case_11, Stockmayer, Flory_Af, Miller_1, Miller_2"]}
{"id": "C38", "title": "Step-growth: mass-average molar mass follows from the recursive branching argument", "statement": "Mw of Case_1, Case_3, Stockmayer, Flory_Af, Miller_1 and Miller_2 equals the mass-weighted expected weight of the molecule containing a random unit, as given by the Macosko-Miller recursion with independent groups; hence the special cases agree with each other (Case_3 with equal conversions = Case_1 = Stockmayer with f=g=2, Miller_2 with binomial extents = Stockmayer, Miller_1 with equal conversions = Stockmayer).", "quantifier": "For every composition, functionality and conversion below gelation.", "why_tests_cant": "Identity over a continuum and over vectors of any length.", "anchors": ["src/polykin/stepgrowth/solutions.py: Case_1, Case_3, Stockmayer, Flory_Af, Miller_1, Miller_2"]}
{"id": "C39", "title": "Step-growth: averages are physically ordered and gelation is reported", "statement": "Below the gel point Mn <= Mw (<= Mz) and all are positive; at or beyond the gel point the function returns NaN.", "quantifier": "For every composition, functionality and conversion.", "why_tests_cant": "Continuum of inputs on both sides of the gel point.", "anchors": ["src/polykin/stepgrowth/solutions.py: Stockmayer, Flory_Af, Miller_1, Miller_2, Case_1, Case_3"]}
{"id": "C40", "title": "Rachford-Rice solver", "statement": "For K > 0 and z a composition, solve_Rachford_Rice returns beta in [0,1]; beta=0 / 1 exactly in the subcooled / superheated cases; otherwise the true root stays inside the maintained bracket, success implies |residual| <= atol, residual_Rachford_Rice's derivative output is the true derivative and the residual is decreasing in beta.", "quantifier": "For every number of components, K-values, composition, initial guess and maxiter >= 1.", "why_tests_cant": "Iteration over arbitrary K, z.", "anchors": ["src/polykin/thermo/flash/vle.py: solve_Rachford_Rice, residual_Rachford_Rice"]}
{"id": "C41", "title": "Flash results satisfy the material balances", "statement": "Every flash result flagged as successful has nonnegative x and y summing to one, V = beta*F, L = F - V, 0 <= beta <= 1 for the PT flash, z_i = (1-beta) x_i + beta y_i up to the inner tolerance, and y_i = K_i x_i up to the stated outer tolerance (in PV/TV the tolerance is on ln K).", "quantifier": "For every K-value model, feed and conditions.", "why_tests_cant": "Arbitrary K-value callbacks, any number of components.", "anchors": ["src/polykin/thermo/flash/vle.py: flash2_PT, flash2_PV, flash2_TV"]}
{"id": "C42", "title": "NRTL is thermodynamically consistent", "statement": "NRTL gamma satisfies gE = RT*sum x_i ln gamma_i and ln gamma_i is the derivative of n*gE/RT with respect to n_i (hence Gibbs-Duhem); gamma of a pure component is 1; all interaction parameters zero gives gamma = 1.", "quantifier": "For every number of components, composition, and parameter matrices.", "why_tests_cant": "Any dimension; derivative identity.", "anchors": ["src/polykin/thermo/acm/nrtl.py: NRTL.gE, NRTL.gamma, NRTL_gamma"]}
{"id": "C43", "title": "Wilson is thermodynamically consistent", "statement": "As for NRTL: gE = RT*sum x_i ln gamma_i, ln gamma_i = d(n gE/RT)/dn_i, unit pure-component activity coefficient.", "quantifier": "For every number of components, composition and parameters.", "why_tests_cant": "Any dimension; derivative identity.", "anchors": ["src/polykin/thermo/acm/wilson.py: Wilson.gE, Wilson.gamma, Wilson_gamma"]}
{"id": "C44", "title": "UNIQUAC is thermodynamically consistent", "statement": "As for NRTL: gE = RT*sum x_i ln gamma_i, ln gamma_i = d(n gE/RT)/dn_i, unit pure-component activity coefficient.", "quantifier": "For every number of components, composition and parameters.", "why_tests_cant": "Any dimension; derivative identity.", "anchors": ["src/polykin/thermo/acm/uniquac.py: UNIQUAC.gE, UNIQUAC.gamma, UNIQUAC_gamma"]}
{"id": "C45", "title": "Flory-Huggins is thermodynamically consistent", "statement": "FloryHuggins_activity is the composition derivative of the mixing Gibbs energy given by Dgmix; for two components it equals FloryHuggins2_activity; a pure component has unit activity.", "quantifier": "For every number of components, sizes m, volume fractions and interaction matrix.", "why_tests_cant": "Any dimension; derivative identity.", "anchors": ["src/polykin/thermo/acm/floryhuggins.py: FloryHuggins.Dgmix, FloryHuggins_activity, FloryHuggins2_activity"]}
{"id": "C46", "title": "Cubic equations of state: Z, P and Helmholtz energy agree", "statement": "Every compressibility factor returned by Z_cubic_roots is a root above B of the cubic equation, at least one exists for B > 0, and v = Z R T/P satisfies P(T, v) = P; P = -dA/dV for the Helmholtz departure function DA; Z -> consistent for RedlichKwong, SoaveRedlichKwong and PengRobinson.", "quantifier": "For every temperature, pressure, composition and critical constants.", "why_tests_cant": "Continuum of states, derivative identity.", "anchors": ["src/polykin/thermo/eos/cubic.py: CubicEoS.P, CubicEoS.Z, CubicEoS.DA, Z_cubic_roots"]}
{"id": "C47", "title": "Cubic equations of state: zero interaction parameters are neutral", "statement": "Giving an all-zero matrix of binary interaction parameters k yields the same am, fugacity coefficients and K-values as giving k=None; ln phi is the composition derivative of the residual Helmholtz energy.", "quantifier": "For every state, composition and component set.", "why_tests_cant": "Continuum of states; two code paths.", "anchors": ["src/polykin/thermo/eos/cubic.py: CubicEoS.phi, CubicEoS.am", "src/polykin/properties/pvt/mixing_rules.py: geometric_interaction_mixing"]}
{"id": "C48", "title": "Virial and ideal-gas equations of state are consistent", "statement": "Z, P, v, phi and DA of Virial are mutually consistent: P(T, v(T,P,y), y) = P, P = -dA/dV, sum y_i ln phi_i = Bm P/RT = Z-1, ln phi_i is the composition derivative; the B matrix is symmetric and its diagonal is the pure-component value; ideal gas is the B = 0 case.", "quantifier": "For every state and composition, any number of components.", "why_tests_cant": "Any dimension, continuum.", "anchors": ["src/polykin/thermo/eos/virial.py: Virial", "src/polykin/thermo/eos/idealgas.py: IdealGas", "src/polykin/properties/pvt/virial.py: B_mixture, B_pure"]}
{"id": "C49", "title": "Equation-of-state parameters never go stale", "statement": "After any history of attribute assignments (Tc, Pc, w, ...) and queries, a(T), b, Bij(T) return the value computed from the current attributes.", "quantifier": "For every history of assignments and queries on an EoS object.", "why_tests_cant": "Cache staleness depends on operation order.", "anchors": ["src/polykin/thermo/eos/cubic.py: CubicEoS.a, CubicEoS.b", "src/polykin/thermo/eos/virial.py: Virial.Bij"]}
{"id": "C50", "title": "Model constructors do not modify or capture the caller's matrices", "statement": "Constructing NRTL / FloryHuggins / Wilson / UNIQUAC / PolyNRTL from parameter matrices leaves those matrices unchanged, and later changes of the caller's matrices do not change the model.", "quantifier": "For every matrices, every sharing of one matrix between arguments or models, and every later history.", "why_tests_cant": "Aliasing only shows across several uses.", "anchors": ["src/polykin/thermo/acm/nrtl.py: NRTL.__init__", "src/polykin/thermo/acm/floryhuggins.py: FloryHuggins.__init__", "src/polykin/thermo/acm/wilson.py: Wilson.__init__", "src/polykin/utils/math.py: enforce_symmetry"]}
{"id": "C51", "title": "Interaction matrices are symmetrised as documented", "statement": "After construction, alpha(T) of NRTL and chi(T) of FloryHuggins are symmetric with zero diagonal for every T, tau(T) has zero diagonal, and the entries above the diagonal are those supplied. The constructors accept exactly the square N x N matrices whose entries (diagonal included) lie within the documented bounds.", "quantifier": "For every N, every matrices accepted, every T.", "why_tests_cant": "Any dimension.", "anchors": ["src/polykin/utils/math.py: enforce_symmetry", "src/polykin/thermo/acm/nrtl.py: NRTL", "src/polykin/thermo/acm/floryhuggins.py: FloryHuggins"]}
{"id": "C52", "title": "Mixing rules are means", "statement": "MULMX2_Perry, MUVMX2_Herning_Zipperer, KVMX2_Wassilijewa, KLMX2_Li and DVMX return a value between the smallest and largest pure-component value, return the pure value for identical or single components, and (where documented) do not depend on the normalisation of the composition.", "quantifier": "For every number of components, nonnegative composition (not all zero) and positive properties.", "why_tests_cant": "Any dimension.", "anchors": ["src/polykin/properties/viscosity/liquid.py: MULMX2_Perry", "src/polykin/properties/viscosity/vapor.py: MUVMX2_Herning_Zipperer", "src/polykin/properties/thermal_conductivity/liquid.py: KLMX2_Li", "src/polykin/properties/thermal_conductivity/vapor.py: KVMX2_Wassilijewa", "src/polykin/properties/diffusion/vapor.py: DVMX"]}
{"id": "C53", "title": "EoS mixing rules", "statement": "geometric_interaction_mixing with k=0 equals the k=None formula, uses only entries above the diagonal, equals the full double sum of the documentation for symmetric k with zero diagonal, and reduces to the pure value; pseudocritical_properties of identical components returns the pure constants; quadratic_mixing is the double sum.", "quantifier": "For every number of components, compositions and parameters.", "why_tests_cant": "Any dimension.", "anchors": ["src/polykin/properties/pvt/mixing_rules.py: geometric_interaction_mixing, quadratic_mixing, pseudocritical_properties"]}
{"id": "C54", "title": "Tait equation coefficients are true derivatives", "statement": "Tait.alpha and Tait.beta equal (1/v) dv/dT and -(1/v) dv/dP of Tait.eval; the volume decreases with pressure.", "quantifier": "For every admissible parameter set, temperature and pressure.", "why_tests_cant": "Derivative identity over a continuum.", "anchors": ["src/polykin/properties/pvt/tait.py: Tait.eval, alpha, beta"]}
{"id": "C55", "title": "Vapor-pressure and vaporisation correlations hit their anchor points", "statement": "PL_Lee_Kesler returns 101325 Pa at the normal boiling point, PL_Wilson, PL_Ambrose_Walton, Wagner25 and Wagner36 return Pc at Tc, PL_Wilson increases with T; DHVL_Watson returns hvap1 at T1, composes along temperatures, and vanishes at Tc; VL_Rackett requires exactly one of ZRA, w.", "quantifier": "For every parameter values.", "why_tests_cant": "Continuum of parameters.", "anchors": ["src/polykin/properties/vaporization/pvap.py: PL_Lee_Kesler, PL_Wilson, PL_Ambrose_Walton", "src/polykin/properties/vaporization/dhvl.py: DHVL_Watson", "src/polykin/properties/equations/vapor_pressure.py: Wagner25, Wagner36", "src/polykin/properties/pvt/volume.py: VL_Rackett"]}
{"id": "C56", "title": "Residence time distributions: E is the derivative of F", "statement": "For the CSTR, N tanks in series, laminar flow (t > tavg/2) and dispersion models, E(t) = dF/dt, F(0) = 0, F is nondecreasing and tends to 1, and the mean of E is tavg; one tank in series is the CSTR; the Peclet number of a tube needs Sc in laminar flow only.", "quantifier": "For every mean time, time, and number of tanks.", "why_tests_cant": "All N and all times.", "anchors": ["src/polykin/reactors/rtd.py: E_cstr, F_cstr, E_tanks_series, F_tanks_series, E_laminar_flow, F_laminar_flow, E_dispersion_model, F_dispersion_model, Pe_tube"]}
{"id": "C57", "title": "Tube pressure drop", "statement": "In laminar flow DP_tube equals DP_Hagen_Poiseuille; DP_Darcy_Weisbach is linear in length; the two-phase Lockhart-Martinelli drop equals the single-phase drop when the other phase is absent and is never below either single-phase drop; Mueller-Bonn reduces to the single-phase values at quality 0 and 1.", "quantifier": "For every flow, geometry and fluid properties.", "why_tests_cant": "Continuum of inputs.", "anchors": ["src/polykin/flow/friction.py: DP_tube, DP_Hagen_Poiseuille, DP_Darcy_Weisbach, DP_GL_Lockhart_Martinelli, DP_GL_Mueller_Bonn"]}
{"id": "C58", "title": "Diffusion profiles stay within physical bounds", "statement": "The dimensionless profiles/uptakes for constant surface concentration are 0 at time zero and lie between 0 and 1 for every time and position.", "quantifier": "For every Fourier number and position.", "why_tests_cant": "Continuum of inputs; special-cased centre.", "anchors": ["src/polykin/hmt/diffusion.py: profile_constc_sphere, profile_constc_sheet, uptake_constc_sheet, uptake_constc_sphere"]}
{"id": "C59", "title": "Composite diffusivity and wall coefficients", "statement": "diffusivity_composite lies between the continuous- and dispersed-phase diffusivity, equals them at fd=0 and fd=1, and is monotone in fd; U_plane_wall and U_cylindrical_wall are below every single resistance's conductance, and the cylindrical wall tends to the plane wall; Nu_plate is continuous at the laminar-turbulent transition.", "quantifier": "For every parameter values.", "why_tests_cant": "Continuum.", "anchors": ["src/polykin/hmt/diffusion.py: diffusivity_composite", "src/polykin/hmt/hex.py: U_plane_wall, U_cylindrical_wall", "src/polykin/hmt/correlations.py: Nu_plate"]}
{"id": "C60", "title": "Rheology models", "statement": "mu_Cross, mu_Cross_modified and mu_Carreau_Yasuda equal mu0 at zero shear rate, never exceed mu0 nor fall below the infinite-shear value, decrease with shear rate (n<1); aT_WLF is 1 at the reference temperature, decreasing, and demands both or none of C1, C2.", "quantifier": "For every admissible parameters and shear rates.", "why_tests_cant": "Continuum.", "anchors": ["src/polykin/flow/rheology.py: mu_Cross, mu_Cross_modified, mu_Carreau_Yasuda, aT_WLF"]}
{"id": "C61", "title": "Brent interpolation steps are the textbook formulae", "statement": "Whenever root_brent takes a step other than bisection, the new point is (up to the minimal-step safeguard) the secant point through the two distinct points, or the inverse quadratic interpolation point through the three points (xa,f(xa)), (xb,f(xb)), (xc,f(xc)); no division by zero occurs.", "quantifier": "For every function and every state of the iteration.", "why_tests_cant": "Continuum of iteration states; a wrong sign only slows convergence and goes unnoticed because bisection rescues it.", "anchors": ["src/polykin/math/roots/scalar.py: root_brent"]}
{"id": "C62", "title": "Backtracking line search", "statement": "Along a descent direction the line search terminates for any tolx>0; on success it returns x+lam*p' with 0<lam<=1, f and its norm at that point, and the Armijo condition with alpha=1e-4; on failure x is unchanged and every component of the last step is below tolx relative to max(|x|,1/sclx). The cubic backtracking model interpolates both previous values, never takes the root of a negative number and returns a stationary point with non-negative curvature.", "quantifier": "all functions f and merit functions, all points, gradients, steps, tolx>0, scalings>0, maxlen>0; all pairs of previous trial values", "why_tests_cant": "infinitely many functions; the nan branch and the backtracking count depend on the residual landscape", "anchors": ["src/polykin/math/roots/vector.py:402-514"]}
{"id": "C63", "title": "Dogleg step length and descent", "statement": "When the trust radius is below the scaled Newton length, the dogleg step has scaled length exactly equal to the trust radius (in all three cases) and is a descent direction whenever the Newton step is.", "quantifier": "all dimensions, gradients, Newton steps, scalings>0, matrices R, radii 0<trustlen<newtlen", "why_tests_cant": "requires exact arithmetic identity over all geometry configurations", "anchors": ["src/polykin/math/roots/vector.py:595-625"]}
{"id": "C64", "title": "Shape validation", "statement": "check_shapes(a, b) returns the common shape s exactly when a is a nonempty list of arrays of shape s and every array in b has shape s; returns None exactly when neither list contains an array; raises ShapeError otherwise.", "quantifier": "all lists of objects of any shapes", "why_tests_cant": "unbounded list lengths and shapes", "anchors": ["src/polykin/utils/tools.py: check_shapes"]}
{"id": "C65", "title": "Set-membership validation", "statement": "check_in_set accepts a value exactly when it (or every element, for a list, set or tuple) belongs to the valid set, returns it unchanged, and raises ValueError otherwise.", "quantifier": "all values and all valid sets", "why_tests_cant": "unbounded collections", "anchors": ["src/polykin/utils/tools.py: check_in_set"]}
{"id": "C66", "title": "Number and mass pdf are the derivatives of the cdf", "statement": "For the log-normal and Schulz-Zimm families, the derivative with respect to chain length of the order-0 (number) and order-1 (mass) cumulative distribution is the corresponding probability density, for every admissible DPn and PDI.", "quantifier": "For every DPn >= 1, PDI > 1, chain length x > 0 and order 0 or 1.", "why_tests_cant": "Numerical differentiation at sample points cannot cover all parameters, and hides factor errors within tolerance.", "anchors": ["src/polykin/distributions/analyticaldistributions.py:291-311", "src/polykin/distributions/analyticaldistributions.py:395-415"]}
{"id": "C67", "title": "Weibull-Nycander-Gold distribution is normalised with the right mean", "statement": "For both branches (r > 1, r < 1) the exact number fractions p(k), k >= 0, are non-negative and sum to one for any p0 in (0,1), and their mean is v exactly when p0 solves the equation v + r ln p0 + (r-1)(1-p0) = 0 given to the root finder; with the limiting value of p0 the mean is v + (r-1) p0; the bracket handed to the root finder is always valid; near r = 1 the Poisson values sum to one with mean v; the tail sum used for r < 1 approximates the exact fraction; a scalar chain length gives a scalar.", "quantifier": "For every r > 0, every p0 in (0,1), every v, every chain length k and every value of the machine epsilon.", "why_tests_cant": "The sum is over infinitely many chain lengths and all parameters.", "anchors": ["src/polykin/distributions/gold.py:95-186"]}
{"id": "C68", "title": "Laguerre reconstruction reproduces the moments it was given", "statement": "The density returned by reconstruct_Laguerre has, integrated over [0, infinity), exactly the moments it was built from: for each supplied moment index j, the integral of n^j pdf(n) equals moments[j].", "quantifier": "For every list of at least two moments with positive zeroth and first moment, every j below its length.", "why_tests_cant": "A test integrates numerically one list of moments.", "anchors": ["src/polykin/distributions/misc.py:205-274"]}
{"id": "C69", "title": "Average number of radicals per particle", "statement": "nbar_Stockmayer_OToole satisfies O'Toole's recurrence nbar(alpha,m)*(m + 2*nbar(alpha,m+1)) = alpha and lies in (0, alpha/m); nbar_Li_Brooks is the unique positive root of 2(2a+m)/(2a+m+1) n^2 + m n - a, strictly increasing in alpha, strictly decreasing in m, below alpha/m, and equal to sqrt((2 alpha+1)/4) > 1/2 without desorption.", "quantifier": "For every alpha > 0 and m >= 0 (m > 0 for the recurrence), and every function with the Bessel recurrence and positivity.", "why_tests_cant": "A test compares a few values; the recurrence, uniqueness and monotonicity range over a continuum of parameters.", "anchors": ["src/polykin/kinetics/emulsion/nbar.py"]}
{"id": "C70", "title": "Reaction classes conserve monomer units", "statement": "Propagation.eval adds to the rate vector exactly -r for the monomer, +r for the first moment, k M (2 P1 + P0) for the second moment and +r for the by-product, leaves every other entry unchanged, and therefore conserves the total number of monomer units over any network; these source terms equal the chain-by-chain propagation balance; Reaction.rate does not depend on the order of the reactants; and reactions can be combined into a ReactionSystem.", "quantifier": "For every state vector, rate coefficient, index assignment, chain-length distribution and network.", "why_tests_cant": "Conservation must hold for all index layouts and networks; the last clause has no test at all.", "anchors": ["src/polykin/kinetics/reaction.py"]}
{"id": "C71", "title": "Eyring coefficient", "statement": "Every accepted Eyring coefficient is positive, bounded by kB*T/h*exp(DSa/R), strictly increasing in temperature and linear in ln(k/T) versus 1/T with slope -DHa/R; T = 0 raises ZeroDivisionError, negative activation entropies are rejected.", "quantifier": "For all admissible parameters and temperatures.", "why_tests_cant": "Needs inequalities over all parameters and temperatures, including the largest and smallest.", "anchors": ["src/polykin/kinetics/coefficients/eyring.py"]}
{"id": "C72", "title": "Average propagation coefficient equals the radical-weighted sum", "statement": "For radical fractions in the long-chain steady state, kp_average_binary equals the sum over all propagation steps of radical fraction times coefficient times monomer fraction; the penultimate-model kp equals the sum over its eight steps with the four radicals in steady state.", "quantifier": "For all positive parameters, all compositions and all radical fractions satisfying the steady-state balances.", "why_tests_cant": "Identity over a continuum of parameters.", "anchors": ["src/polykin/copolymerization/binary.py:86-144", "src/polykin/copolymerization/terminal.py:114-146", "src/polykin/copolymerization/penultimate.py:120-200"]}
{"id": "C73", "title": "Composition drift obeys the monomer balance", "statement": "Along every exact solution of the drift equation coded in df1dx, monomer left plus monomer incorporated equals monomer charged; a constant is a solution exactly when it is an azeotrope; the monomer whose copolymer fraction exceeds its feed fraction is strictly depleted.", "quantifier": "For every r1, r2 > 0 and every solution on [0, X], X <= 1.", "why_tests_cant": "A test integrates single cases numerically with tolerance.", "anchors": ["src/polykin/copolymerization/binary.py:147-261"]}
{"id": "C74", "title": "Cumulative copolymer composition used in fitting", "statement": "The cumulative composition formula f1 + (f10 - f1)/(x + 1e-10) used by the fitting routines is the mean instantaneous composition over the conversion interval, up to the regularisation constants, and at x = 0 gives the initial copolymer composition.", "quantifier": "For every drift solution and every conversion.", "why_tests_cant": "A test compares few conversions.", "anchors": ["src/polykin/copolymerization/fitting.py:343-364", "src/polykin/copolymerization/fitting.py:453"]}
{"id": "C75", "title": "Multicomponent composition drift closes", "statement": "The right-hand side coded for the first N-1 monomer fractions implies the same drift equation for the last fraction, which monomer_drift_multi computes by difference, and every returned row sums to one.", "quantifier": "For every number of monomers, positive reactivity matrix, composition and conversion.", "why_tests_cant": "Any dimension and continuum of parameters.", "anchors": ["src/polykin/copolymerization/multicomponent.py:395-490"]}
{"id": "C76", "title": "Least-squares reactivity-ratio fit: identifiability and covariance", "statement": "The NLLS objective of fit_copo_data is nonnegative; for noise-free F1(f1) data with two distinct feed compositions it vanishes at the generating (r1, r2) and at no other positive pair. For an objective that is quadratic about the optimum the reported covariance is sse/(n-2) times the inverse of the normal matrix, and no covariance is reported for n <= 2.", "quantifier": "all data set lists, weights > 0, scales != 0, reactivity ratios > 0; all nondegenerate quadratic objectives", "why_tests_cant": "Optimiser tests check a few published data sets; uniqueness of the zero and the exact scale factor of the covariance need an argument over all data.", "anchors": ["src/polykin/copolymerization/fitting.py:431-479"]}
{"id": "C77", "title": "Data set weight has the same meaning in NLLS and ODR", "statement": "Doubling the weight of a data set doubles its contribution to the objective, whichever estimation method (NLLS or ODR) is chosen.", "quantifier": "all data sets and weights > 0", "why_tests_cant": "Published examples use unit weights, for which the two agree to 1e-10.", "anchors": ["src/polykin/copolymerization/fitting.py:431-438", "src/polykin/copolymerization/fitting.py:492-535"]}
{"id": "C78", "title": "Outer tolerance of the flash solvers", "statement": "The rtol_outer argument controls the accuracy of the K-values: a result flagged as converged has K-values within rtol_outer of the K-value model at the returned compositions.", "quantifier": "all K-value models, feeds and tolerances", "why_tests_cant": "The violation is a relative error of 1e-5, smaller than usual test tolerances.", "anchors": ["src/polykin/thermo/flash/vle.py:flash2_PT"]}
{"id": "C79", "title": "PT flash with nonvolatile components", "statement": "flash2_PT accepts K-values that are zero (nonvolatile components such as polymers): a solution that exists is found, not turned into NaN by the K-value update.", "quantifier": "all K-value models with some K_i = 0", "why_tests_cant": "Needs K_i = 0 and at least two outer iterations; tests use volatile mixtures.", "anchors": ["src/polykin/thermo/flash/vle.py:flash2_PT"]}
{"id": "C80", "title": "PV flash of a pure component finds its boiling point", "statement": "For a single component with ln K = a + b(1/T - 1/300), flash2_PV returns the temperature where K = 1 whenever it exists, whatever the start temperature.", "quantifier": "all a, b != 0, T0 > 0, tolerances", "why_tests_cant": "Depends on the sign of a (boiling point above or below the reference temperature), for all starts.", "anchors": ["src/polykin/thermo/flash/vle.py:flash2_PV"]}
{"id": "C81", "title": "Mixing functions of the activity models are consistent", "statement": "Dgmix = Dhmix - T*Dsmix and gE = hE - T*sE; the ideal entropy of mixing is between 0 and R ln N; sE (Dsmix for Flory-Huggins), obtained with a complex step, agrees with -dgE/dT; with temperature-independent parameters hE is exactly zero.", "quantifier": "For every N, composition, temperature > 0 and parameter matrices.", "why_tests_cant": "Continuum of states; derivative identity.", "anchors": ["src/polykin/thermo/acm/base.py: SmallSpeciesActivityModel.Dgmix, Dhmix, Dsmix, hE, sE, ActivityModel._Dsmix_ideal", "src/polykin/thermo/acm/floryhuggins.py: FloryHuggins.Dhmix, Dsmix", "src/polykin/math/derivatives/ndiff.py: derivative_complex"]}
{"id": "C82", "title": "PolyNRTL is usable", "statement": "PolyNRTL can be instantiated; gE, Dgmix and Dsmix return numbers for documented input; the conversions from segment-based compositions return normalised fractions.", "quantifier": "For every number of small species and polymers, compositions and degrees of polymerisation.", "why_tests_cant": "Shape errors for every size combination; abstract class.", "anchors": ["src/polykin/thermo/acm/polynrtl.py: PolyNRTL.gE, PolyNRTL_a", "src/polykin/thermo/acm/base.py: PolymerActivityModel, _convert_xs_to_x, _convert_xs_to_X, Dgmix, Dsmix"]}
{"id": "C83", "title": "EoS departure functions obey the thermodynamic relations", "statement": "EoS.DX returns departure values with U = A + T S, G = H - T S, G = A + RT(Z-1), H = U + RT(Z-1); for the ideal gas they are A = G = RT ln(P/P0), S = -R ln(P/P0), U = H = 0; the centred difference gives the exact entropy when the Helmholtz departure is quadratic in T.", "quantifier": "For every Helmholtz function, state, reference pressure.", "why_tests_cant": "Continuum of states, any equation of state.", "anchors": ["src/polykin/thermo/eos/base.py: EoS.DX", "src/polykin/thermo/eos/idealgas.py: IdealGas.DA"]}
{"id": "C84", "title": "Saturation pressure of a cubic equation of state", "statement": "CubicEoS.Psat returns a pressure at which liquid and vapour fugacities of two distinct phases agree; it rejects mixtures and T >= Tc.", "quantifier": "For every fluid, temperature and starting guess.", "why_tests_cant": "Continuum of states and guesses; degenerate one-root region.", "anchors": ["src/polykin/thermo/eos/cubic.py: CubicEoS.Psat", "src/polykin/math/fixpoint/wegstein.py: fixpoint_wegstein"]}
{"id": "C85", "title": "Correlations return real numbers", "statement": "PL_Ambrose_Walton, DHVL_Pitzer, DHVL_Watson, VL_Rackett, Wagner25 and Wagner36 return a real number exactly up to the critical temperature; MUV_Lucas exactly for Zc <= 0.292 (MUVMX_Lucas for any Zc without dipole moments); DHVL_Kistiakowsky_Vetere (hydrocarbon) exactly when (263 M)^0.581 <= Tb. None of the arguments is checked, so other inputs give a complex number or NaN.", "quantifier": "For every real argument.", "why_tests_cant": "Depends on a sign condition over a continuum; tests use a few ordinary substances.", "anchors": ["src/polykin/properties/vaporization/pvap.py: PL_Ambrose_Walton", "src/polykin/properties/vaporization/dhvl.py: DHVL_Pitzer, DHVL_Watson, DHVL_Kistiakowsky_Vetere", "src/polykin/properties/pvt/volume.py: VL_Rackett", "src/polykin/properties/viscosity/vapor.py: MUV_Lucas, MUVMX_Lucas"]}
{"id": "C86", "title": "Fitting a property equation", "statement": "PropertyEquationT.fit stores the optimum in the fitted parameters of the object, leaves the other parameters alone, sets the temperature range to that of the data, and returns in result['parameters'] the fitted parameters.", "quantifier": "For every optimiser behaviour, parameter table, fit_only selection and data.", "why_tests_cant": "The optimiser's evaluation order is not observable from a test on the final object.", "anchors": ["src/polykin/properties/equations/base.py: PropertyEquationT.fit"]}
{"id": "C87", "title": "Relations between the property equations", "statement": "Antoine, Yaws and DIPPR101 coincide for matching parameters; base-10 and base-e Antoine parameters convert by ln 10; Antoine increases with T and inverts to the boiling temperature; DIPPR105 is the reciprocal of VL_Rackett; DIPPR106 with exponent 0.38 is DHVL_Watson; DIPPR107 is even in C and E; DIPPR102 is the law of Sutherland for B = 1/2, D = 0, and is positive and increasing in T for A, B > 0 and C, D >= 0; DIPPR104 with non-positive coefficients rises with T and stays below A.", "quantifier": "For every temperature and parameter values.", "why_tests_cant": "Equalities over a continuum.", "anchors": ["src/polykin/properties/equations/vapor_pressure.py: Antoine", "src/polykin/properties/equations/viscosity.py: Yaws", "src/polykin/properties/equations/dippr.py: DIPPR101, DIPPR102, DIPPR104, DIPPR105, DIPPR106, DIPPR107"]}
{"id": "C88", "title": "Transport-property correlations", "statement": "MUVMX_Lucas of identical components equals MUV_Lucas; nonpolar FP0 is 1; the Stiel-Thodos density function is defined exactly below reduced density 2.8, strictly increasing across its three branches, and gives a positive residual conductivity decreasing with molar volume; Dean-Stiel is positive; DV_Wilke_Lee is symmetric in the two species, inversely proportional to pressure and rejects exactly the calls with only one of rhoB, TB; liquid diffusivities are positive; the Stiel-Thodos mixture of identical components equals the pure component exactly when Zc = 0.291 - 0.08 w; the Wilke-Lee diameter is 1.18 Vb^(1/3); the dense-gas viscosity corrections of Jossi and Dean-Stiel increase with density, Jossi not vanishing at zero density, and Dean-Stiel of identical components is that of the pure component; the Wilke-Lee collision integral is positive and decreases with temperature, so the gas diffusivity increases with temperature.", "quantifier": "For every admissible argument.", "why_tests_cant": "Monotonicity across branch limits and positivity over a continuum.", "anchors": ["src/polykin/properties/viscosity/vapor.py: MUV_Lucas, MUVMX_Lucas, MUVPC_Jossi, MUVMXPC_Dean_Stiel", "src/polykin/properties/thermal_conductivity/vapor.py: KVPC_Stiel_Thodos", "src/polykin/properties/diffusion/vapor.py: DV_Wilke_Lee", "src/polykin/properties/diffusion/liquid.py: DL_Wilke_Chang, DL_Hayduk_Minhas, DL_Stokes_Einstein"]}
{"id": "C89", "title": "Vrentas-Duda diffusivities", "statement": "VrentasDudaBinary accepts exactly weight fractions in [0, 1]; mutual and self diffusivity agree for a trace of solvent, mutual vanishes for pure solvent; the self diffusivity lies in (0, D0]; the mutual diffusivity is nonnegative.", "quantifier": "For every admissible parameter set, weight fraction and temperature.", "why_tests_cant": "Continuum of parameters.", "anchors": ["src/polykin/properties/diffusion/vrentasduda.py: VrentasDudaBinary.__call__, selfd, mutual"]}
{"id": "C90", "title": "Nusselt correlations", "statement": "Sphere and drop correlations give Nu = 2 without flow and increase with Re or Ra; laminar tube flow never gives less than 3.66; cylinder and plate correlations increase; combined convection is at least each contribution when assisting and stays nonnegative when opposing; stirred-tank and tube-bank values are nondecreasing in Re; unsupported surface/impeller pairs raise ValueError.", "quantifier": "For every Reynolds, Rayleigh and Prandtl number and geometry.", "why_tests_cant": "Continuum of inputs and branch changes.", "anchors": ["src/polykin/hmt/correlations.py: Nu_tube, Nu_sphere, Nu_drop, Nu_cylinder, Nu_plate_free, Nu_combined, Nu_tank, Nu_cylinder_bank"]}
{"id": "C91", "title": "Roots of x tan x = a and x cot x = 1 - a", "statement": "roots_xtanx(a, N) returns for each i the root of x tan x = a in (i pi, i pi + pi/2), roots_xcotx(a, N) the root of 1 - x cot x = a in (i pi, (i+1) pi): exactly one root exists there, the returned number never leaves the interval, and it is the root up to the tolerance; the convection uptakes computed from the roots lie in [0, 1].", "quantifier": "For every a > 0, index i and tolerance.", "why_tests_cant": "Newton's method near the poles of tan for a continuum of a; very small a are never sampled.", "anchors": ["src/polykin/math/special.py: roots_xtanx, roots_xcotx", "src/polykin/hmt/diffusion.py: uptake_convection_sheet, uptake_convection_sphere"]}
{"id": "C92", "title": "Friction factors", "statement": "The Haaland friction factor is positive, decreases with the Reynolds number, increases with roughness and exceeds the laminar value 64/Re; the Colebrook equation has exactly one positive solution, the Newton solver of fD_Colebrook always succeeds and its result is close to that solution.", "quantifier": "For every Re >= 2300 and relative roughness between 0 and 1.", "why_tests_cant": "Newton convergence from the Haaland guess over a continuum of inputs.", "anchors": ["src/polykin/flow/friction.py: fD_Haaland, fD_Colebrook"]}
{"id": "C93", "title": "Packed beds and settling spheres", "statement": "The Ergun pressure drop is positive and increases with the mass flux; the sphere drag exceeds Stokes'; the force balance has exactly one terminal velocity, below Stokes' value and increasing with the particle density; vt_sphere returns a velocity near it.", "quantifier": "For every particle and fluid property.", "why_tests_cant": "Solver tolerance against a continuum of scales.", "anchors": ["src/polykin/flow/friction.py: DP_packed_bed, Cd_sphere, vt_Stokes, vt_sphere"]}
{"id": "C94", "title": "Relief areas for gases and liquids", "statement": "The required relief area of a gas is proportional to the flow, independent of the back pressure in critical flow and increasing with it otherwise; the critical pressure solves the isentropic relation; steam corrections stay within bounds and pressures beyond the correlation are rejected; the liquid iteration converges to the unique solution of the sizing equation.", "quantifier": "all flows, pressures, temperatures, heat capacity ratios > 1, viscosities and coefficients", "why_tests_cant": "The liquid area is the fixed point of an iteration with a relative tolerance: uniqueness, accuracy and convergence hold only by a contraction argument over all Reynolds numbers; a test sees single cases.", "anchors": ["src/polykin/flow/prv.py:area_relief_gas", "src/polykin/flow/prv.py:area_relief_liquid"]}
{"id": "C95", "title": "Relief areas for two-phase flow", "statement": "In the omega method the critical pressure ratio lies between 0 and 1 and maximises the mass flux, the area grows with the back pressure in subcritical flow, the subcooled formulas agree with the saturated and the liquid limits, and the area is never below that of a non-flashing liquid.", "quantifier": "all flows, pressures, specific volumes or densities, and coefficients", "why_tests_cant": "The critical ratio is a correlation and the flux equation has one maximum for every omega: both are statements over all omega that a few tabulated cases do not reach, and the failing regions are narrow.", "anchors": ["src/polykin/flow/prv.py:area_relief_2phase", "src/polykin/flow/prv.py:area_relief_2phase_subcooled"]}
{"id": "C96", "title": "Linear algebra of the quasi-Newton iterations", "statement": "For every order, scaling and Jacobian: the gradient passed to the global methods is the gradient of 1/2||sclf f||^2; the well-conditioned branch gives exactly the Newton step of the unscaled system with slope -||sclf f||^2; the regularised branch gives a descent direction for every non-zero Jacobian; the Broyden update satisfies the secant equation, leaves conjugate directions alone and is the least change of the scaled matrix; and the factors (Q, R) kept between iterations always represent the current Jacobian approximation.", "quantifier": "all orders N, all QR factors of all (also singular) Jacobians, all positive scalings, all steps and function values", "why_tests_cant": "Tests solve a handful of small well-conditioned systems; none reaches a singular Jacobian, and the state left behind by the regularised branch is internal.", "anchors": ["src/polykin/math/roots/vector.py:226", "src/polykin/math/roots/vector.py:337", "src/polykin/math/roots/vector.py:389"]}
{"id": "C97", "title": "Uptake with surface convection", "statement": "uptake_convection_sheet and uptake_convection_sphere, with the four eigenvalues they compute themselves, return a fractional uptake: zero at time zero and without convection, strictly increasing in time, below one, tending to one; and continuous at the start.", "quantifier": "For every Biot number (sphere; sheet from 1e-9 upwards) and every Fourier number.", "why_tests_cant": "The bound rests on the orthogonality of the eigenfunctions and on the error of the computed roots for a continuum of Biot numbers.", "anchors": ["src/polykin/hmt/diffusion.py: uptake_convection_sheet, uptake_convection_sphere", "src/polykin/math/special.py: roots_xtanx, roots_xcotx"]}
{"id": "C98", "title": "Confidence ellipse", "statement": "confidence_ellipse returns the ellipse (p - c)' V^-1 (p - c) = 2 F(1 - alpha; 2, n - 2): centre, axes and orientation.", "quantifier": "For every centre, every symmetric positive definite covariance matrix, every sample size and every orthonormal matrix of eigenvectors the eigenvalue routine may return.", "why_tests_cant": "The orientation depends on the sign convention of the eigenvalue routine, and a plot is checked by eye.", "anchors": ["src/polykin/math/misc/jcr.py: confidence_ellipse"]}
{"id": "C99", "title": "Confidence region", "statement": "confidence_region returns npoints points, one on each ray, at which the sum of squares has the boundary value S(c)(1 + 2/(n-2) F); the result does not depend on the unit of S and moves with the centre.", "quantifier": "For every sum-of-squares function, centre, sample size, alpha, width, number of points and tolerance in the documented ranges.", "why_tests_cant": "Whether the secant iteration reports success away from the boundary depends on the ratio of guess and radius, a continuum.", "anchors": ["src/polykin/math/misc/jcr.py: confidence_region", "src/polykin/math/roots/scalar.py: root_secant"]}
{"id": "C100", "title": "Data distributions are normalised and consistent", "statement": "A DataDistribution built from a table of sizes and densities keeps exactly the points with positive density and chain length at least one. It needs at least four of them in increasing order. Its number, mass and GPC densities each integrate to one over the range of the data, differ by powers of the chain length, and the density of the given kind is proportional to the given values at the data points. Its cumulative distribution is zero up to the first point, one from the last on, and has the density as derivative. Scaling the input densities changes nothing. The density is never negative and the averages are ordered.", "quantifier": "All tables of sizes and densities, all kinds, both size units, every interpolation that is continuous, passes through the points, is linear in the values, is zero outside and is a cubic for four points", "why_tests_cant": "Tests use one smooth table; the density of a cubic through positive points can be negative, and an integer array of molar masses raises, only for other tables.", "anchors": ["src/polykin/distributions/datadistribution.py:DataDistribution.__init__", "src/polykin/distributions/datadistribution.py:DataDistribution._moment_quadrature", "src/polykin/distributions/datadistribution.py:DataDistribution._pdf0_length", "src/polykin/distributions/base.py:IndividualDistribution._cdf_length"]}
{"id": "C101", "title": "Random chain lengths and default plot ranges follow the distribution", "statement": "Random chain lengths of every analytical distribution are at least one and follow its law, so that their mean is DPn. The default range runs from the 0.01 % to the 99.99 % quantile of the distribution.", "quantifier": "All DPn and PDI accepted by the classes; every variate of the generators; every quantile function that inverts the cumulative distribution", "why_tests_cant": "A sample of a distribution with large DPn contains no zero length and its mean differs from DPn by less than its noise; the shift of the range by one is invisible at large DPn.", "anchors": ["src/polykin/distributions/analyticaldistributions.py:LogNormal._random_length", "src/polykin/distributions/analyticaldistributions.py:SchulzZimm._random_length", "src/polykin/distributions/analyticaldistributions.py:LogNormal._range_length_default", "src/polykin/distributions/analyticaldistributions.py:Flory._range_length_default"]}
{"id": "C102", "title": "Deconvolution of a data distribution returns the optimum", "statement": "DataDistribution.fit starts from chain lengths inside the data range, strictly increasing and equally spaced on a logarithmic scale. It constrains the weights to sum to one and the chain lengths to increase, never leaves the domain of the classes while within its bounds, and returns the components at the optimum found.", "quantifier": "All data distributions, numbers of components, classes, and sequences of points at which the optimiser evaluates the objective", "why_tests_cant": "A test only sees the trace of one optimiser on one table, where the last evaluation is close to the optimum.", "anchors": ["src/polykin/distributions/datadistribution.py:DataDistribution.fit"]}
{"id": "C103", "title": "Reaction systems: construction, indices and order of evaluation", "statement": "Evaluating a propagation needs the indices of its species and vectors long enough, and raises otherwise; indices may coincide, the contributions then add up (the source terms themselves are C70). The rates of a system are the sums of those of its reactions and do not depend on their order. Systems can be built from reactions, by listing or by adding, without changing the operands; repeated reactions are rejected; the dimension counts each species once; and the rates of a system can be evaluated.", "quantifier": "All temperatures, rate coefficients, state vectors, index assignments, chain-length distributions of finite length, lists of reactions and ways of building a system.", "why_tests_cant": "Tests evaluate one reaction on one vector (the module has no tests at all); the balance identity, the independence of the order and the impossibility of building a usable system range over every distribution, every list and every construction.", "anchors": ["src/polykin/kinetics/reaction.py:118-123", "src/polykin/kinetics/reaction.py:141-168", "src/polykin/kinetics/reaction.py:178-202", "src/polykin/kinetics/reaction.py:233-258"]}
{"id": "C104", "title": "Composition drift wrappers", "statement": "monomer_drift_binary returns one value for each conversion and initial composition (documented shape: conversions by initial values), within the solver's error of the exact composition, inside [0, 1], reproducing the initial composition at zero conversion; any set of conversions is accepted or rejected with a ValueError; the drift method of a model with constant reactivity ratios agrees with it, also when the integration fails.", "quantifier": "All solvers meeting the stated contract, initial compositions, conversion lists, reactivity ratios and tolerances.", "why_tests_cant": "Tests integrate two systems at a few conversions with one solver; the behaviour at the bounds and for failures depends on solver outcomes that tests do not produce.", "anchors": ["src/polykin/copolymerization/binary.py:210-233", "src/polykin/copolymerization/terminal.py:206-235"]}
{"id": "C105", "title": "Reactivity-ratio fit: what is reported", "statement": "fit_copo_data rejects too few data, drift data with ODR and unknown methods; a reported least-squares estimate is positive and within the bounds of the optimiser, and so is every point used for the covariance; the intervals are the quantile times the standard errors and agree with the error bars of the confidence ellipse; two points give no errors; the objective is zero exactly when the prediction reproduces every value; scales and weights are equivalent; a common factor of the weights and the exchange of the monomers change nothing; cumulative compositions obey the mass balance at every conversion; data that determine the ratios are fitted, whatever their order and whatever region is requested; the significance level is checked.", "quantifier": "All data sets, weights, scales, guesses, methods, significance levels and options; all optimisers, integrators, inverses and quantile functions meeting their contracts.", "why_tests_cant": "Tests fit one or two published data sets with default options; noise-free data, points at zero conversion, unsorted drift data, pure-monomer data and unusual significance levels are not among them.", "anchors": ["src/polykin/copolymerization/fitting.py:264-419", "src/polykin/copolymerization/fitting.py:422-484", "src/polykin/copolymerization/fitting.py:487-537"]}
{"id": "C106", "title": "Eigenvalue arrays are shared by the cache", "statement": "roots_xtanx and roots_xcotx are decorated with functools.cache and return the stored array itself. A program which never assigns to a returned array sees exactly what the undecorated functions compute, and so do the convective uptakes, for every order and repetition of calls; two calls return one array exactly when all their arguments agree; an assignment can only affect results with the very same arguments; the number of stored arrays is the number of different arguments. Assigning to a returned array must not change later results (it does).", "quantifier": "All histories of calls, assignments and uptake evaluations in one interpreter; all arguments.", "why_tests_cant": "Tests call each function once with fresh arguments and never modify the result, so they cannot see that later results depend on what callers did to earlier ones.", "anchors": ["src/polykin/math/special.py:74-128", "src/polykin/math/special.py:131-186", "src/polykin/hmt/diffusion.py:432-441", "src/polykin/hmt/diffusion.py:500-509"]}
{"id": "C107", "title": "Constructors of the equations of state", "statement": "A cubic or virial equation of state is constructed exactly when all its parameters have the same shape with at least one dimension (numbers count as one-element vectors, nothing is extended); other parameters raise ShapeError or, if all are zero-dimensional, TypeError; the number of components is the first dimension; the object holds the values passed; numbers and sequences are copied so that later assignments by the caller cannot change them. Arrays, too-small interaction matrices and two-dimensional parameters must be copied or rejected (they are not).", "quantifier": "All numbers, sequences and arrays as parameters, all interaction matrices, all later assignments.", "why_tests_cant": "Tests build each equation of state from well-formed lists; mixed kinds of arguments, aliasing of arrays and malformed matrices are not tried.", "anchors": ["src/polykin/utils/math.py:108-123", "src/polykin/thermo/eos/cubic.py:82-98", "src/polykin/thermo/eos/cubic.py:446-454", "src/polykin/thermo/eos/virial.py:65-81"]}
{"id": "C108", "title": "The Tait database gives physical polymers", "statement": "Every polymer of the Tait parameter file can be constructed: from_database(name) passes the bounds of the constructor and returns exactly the parameters and ranges of its own row; any other name gives None without an exception. Inside its whole validity range of temperature and pressure each of the 28 polymers has a specific volume between 0.4 and 1.5 l/kg, a positive expansion coefficient and a positive compressibility, its volume rises strictly with temperature and falls strictly with pressure. The call with units evaluates the equation at the value in kelvin and pascal and prints a message exactly outside the ranges. The table handed out by get_database is independent of later from_database calls.", "quantifier": "for every row of the table, every temperature and pressure of its range, every name, unit and history of database calls", "why_tests_cant": "A test evaluates a handful of polymers at a few points; a mistyped coefficient shows only as a wrong sign of the expansion somewhere in a range, and the sharing of the cached table shows only in a history where a caller modifies it.", "anchors": ["src/polykin/properties/pvt/tait.py:86-122", "src/polykin/properties/pvt/tait.py:258-293", "src/polykin/properties/pvt/io.py:9-21", "src/polykin/properties/pvt/Tait_parameters.tsv:2-29"]}
{"id": "C109", "title": "Critical point and temperature functions of the equations of state", "statement": "For both pairs (u, w) of the cubic equations there is exactly one critical point with a triple root, the constants Omega_a and Omega_b are its values rounded to five decimals, and a component sits there at its own Tc and Pc; with the exact constants the critical isotherm crosses Pc only at the critical volume. alpha(Tc) = 1, alpha depends on T/Tc and w only and falls with temperature; Soave's and Graboski's coefficients agree to 0.006. b - a/RT is the second virial coefficient of the cubic equation. The Pitzer-Abbott second virial coefficient rises with temperature and vanishes at exactly one Boyle temperature between Tc and 4 Tc. The fugacities of an ideal gas are the partial pressures, and the K-values of a cubic equation are the ratios at which the fugacities of both phases agree.", "quantifier": "for every temperature, volume, critical constants > 0, acentric factor in the stated range, composition", "why_tests_cant": "Continuum of temperatures and volumes; a wrong digit in a constant moves the critical point by less than the tolerance of a typical test.", "anchors": ["src/polykin/thermo/eos/cubic.py:440-598", "src/polykin/thermo/eos/cubic.py:181-231", "src/polykin/properties/pvt/virial.py:55-58", "src/polykin/thermo/eos/base.py:175-301"]}
{"id": "C110", "title": "Inputs and plots of the distributions", "statement": "pdf and cdf accept the names of the kinds in any case and nothing else, and evaluate the order of that kind. A plot shows the requested densities and cumulative distributions at increasing points over the default range (or the given one), and it leaves the distribution unchanged: the same call gives the same figure again.", "quantifier": "All inputs of pdf, cdf and plot; all sets of individual distributions and mixtures of them; every sequence of plots", "why_tests_cant": "The figures are not compared by tests, and the damage shows only when an object is plotted repeatedly or plotted first and blended later.", "anchors": ["src/polykin/distributions/base.py:Distribution.plot", "src/polykin/distributions/base.py:Distribution._verify_kind", "src/polykin/distributions/base.py:IndividualDistribution._xrange_plot", "src/polykin/distributions/base.py:MixtureDistribution._xrange_plot", "src/polykin/distributions/base.py:MixtureDistribution.__iter__"]}
{"id": "C111", "title": "Construction, evaluation and plots of the property equations", "statement": "An equation object is created exactly for a range 0 <= Tmin < Tmax, and rejected with RangeError otherwise. Calling it evaluates its formula at the temperature in kelvin, for every equation type, and warns exactly outside the range. Its plot shows 100 points of the equation, in order, from one end of the range to the other, at abscissae which give back the temperature, for every accepted equation.", "quantifier": "All ranges, parameters, temperatures, units, plot kinds and plot ranges", "why_tests_cant": "Tests call the equations at a few temperatures inside finite ranges; plots are only checked not to fail.", "anchors": ["src/polykin/properties/equations/base.py:PropertyEquationT.__init__", "src/polykin/properties/equations/base.py:PropertyEquationT.__call__", "src/polykin/properties/equations/base.py:PropertyEquationT.plot", "src/polykin/properties/equations/dippr.py:DIPPRP5.__init__", "src/polykin/properties/equations/dippr.py:DIPPR106.__init__", "src/polykin/properties/equations/vapor_pressure.py:Antoine.__init__", "src/polykin/properties/equations/viscosity.py:Yaws.__init__"]}
{"id": "C112", "title": "Plots of a copolymerization model", "statement": "A plot of a copolymerization model shows the curve of the model at the given composition or temperature and the points of the data sets of that kind, in terms of the chosen monomer; choosing the other monomer gives the mirror image. Arguments outside the documented sets are rejected. A curve drawn for a data set describes the same experiment as its points.", "quantifier": "All models, data sets in either monomer order, kinds, choices of what is shown, monomers, compositions", "why_tests_cant": "Figures are not compared by tests; the failing cases need data sets of another kind or data sets that do not start at zero conversion.", "anchors": ["src/polykin/copolymerization/terminal.py:CopoModel.plot", "src/polykin/copolymerization/copodataset.py:CopoDataset.getvar"]}
{"id": "C113", "title": "Convergence of the scalar and fixed-point iterations", "statement": "Newton's method converges from every start, and the secant method from two points beyond the root, on increasing convex functions, within an explicitly bounded number of iterations and with the error bounded by the tolerances; near a simple root Newton's error is squared at each step. The fixed-point solvers converge on every contraction, to within tolx / (1 - L) of the fixed point, and the secant method on every function with positive bounded slopes.", "quantifier": "All functions, maps, dimensions, starts, tolerances and numbers of iterations satisfying the stated conditions", "why_tests_cant": "Tests solve a handful of smooth equations from good guesses; convergence for all functions of a class, and the existence of a cycle, cannot be seen from samples.", "anchors": ["src/polykin/math/roots/scalar.py:root_newton", "src/polykin/math/roots/scalar.py:root_secant", "src/polykin/math/fixpoint/wegstein.py:fixpoint_wegstein", "src/polykin/math/fixpoint/anderson.py:fixpoint_anderson"]}
{"id": "C114", "title": "Vapour-pressure correlations reproduce the definition of the acentric factor", "statement": "At a reduced temperature of 0.7 the predicted vapour pressure satisfies log10(P/Pc) = -(1 + w): for Wilson to 0.014 % of (1 + w) ln 10 in ln P, for Ambrose-Walton to 4e-6 (1 + |w| + w^2); the Lee-Kesler curve fixed by Tb is the one with the acentric factor read off the curve itself, to 5e-5, passes through 101325 Pa at Tb and through (Tc, Pc) to 8e-5 (1 + |w|).", "quantifier": "All critical constants, acentric factors and boiling temperatures up to 0.99 Tc", "why_tests_cant": "A wrong digit in one of the coefficients shifts the result by less than the tolerance of a regression test at one point, but breaks the identity; the identity holds for a continuum of fluids.", "anchors": ["src/polykin/properties/vaporization/pvap.py: PL_Wilson, PL_Ambrose_Walton, PL_Lee_Kesler"]}
{"id": "C115", "title": "Vaporisation enthalpy at the normal boiling point", "statement": "DHVL_Vetere is homogeneous of degree one in the temperatures, positive below Tc for critical pressures from 5 bar and increasing with Pc. DHVL_Kistiakowsky_Vetere rejects exactly a missing M or an unknown kind (unless kind = any); 'any' adds R ln 2 to the entropy per doubling of Tb and stays between 74.5 and 85.2 J/(mol K) from 200 K to 700 K; 'ester' is 1.03 times 'polar'; the polar entropy falls with M up to 851 K and rises from 852 K on; the acid/alcohol entropy rises with M at every Tb; the hydrocarbon enthalpy rises with Tb. Every kind gives a positive enthalpy.", "quantifier": "All positive temperatures, pressures, molar masses and kinds", "why_tests_cant": "Monotonicity and sign over continua of three variables; the negative values appear outside the published range, which no test visits.", "anchors": ["src/polykin/properties/vaporization/dhvl.py: DHVL_Vetere, DHVL_Kistiakowsky_Vetere"]}
{"id": "C116", "title": "Text representations", "statement": "custom_repr aligns all one-line values in one column, indents nested objects by two, and determines the values of all attributes (two objects with the same representation have equal attribute strings), in particular for the chain-length dependent coefficients and the copolymerization models; pprint_matrix aligns the rows behind a label of nspaces characters, opens with the first and closes with the last row; a mixture is shown as 'empty' exactly when it has no components and otherwise as a table with one line per component whose columns line up with the header; colored_bool shows str(value) in green or red and resets the colour; the representation of a root, vector-root or flash result puts the colons of its labels in one column and determines every field.", "quantifier": "All attribute names (identifiers) and value strings, including multi-line ones; all matrices of formatted elements; all mixtures", "why_tests_cant": "Injectivity over all strings; multi-line values, nested objects and long class names do not occur in the tests.", "anchors": ["src/polykin/utils/tools.py: custom_repr, pprint_matrix, colored_bool", "src/polykin/distributions/base.py: MixtureDistribution.__repr__, components_table", "src/polykin/kinetics/coefficients/cldtermination.py: __repr__", "src/polykin/kinetics/coefficients/cldpropagation.py: __repr__", "src/polykin/copolymerization/terminal.py: __repr__", "src/polykin/math/roots/results.py:46-107", "src/polykin/thermo/flash/vle.py:70-87"]}
{"id": "C117", "title": "Gas viscosity of Lucas: sign, pressure and branches", "statement": "The Lucas viscosity (MUV_Lucas, MUVMX_Lucas) is positive for every state below the critical temperature and pressure and for every reduced temperature above 0.769; it increases with pressure (nonpolar gases below the critical point, all gases with FP0 <= 1.5 above the critical temperature), tends to Z1/xi and to 0.6 Tr/xi at low pressure, and is a positive and continuous function of the pressure for liquids under pressure as well.", "quantifier": "For every temperature, pressure, critical constants and dipole factor; the claims fail for compressed liquids: for Tr between 0.25 and 0.75 and P >= Pc the result is negative, and on Tr = 0.9 it jumps at P = Pc.", "why_tests_cant": "Sign and monotonicity over a two-dimensional continuum of states with two branches of nested powers; the tests use two states.", "anchors": ["src/polykin/properties/viscosity/vapor.py: _MUV_Lucas_mu, _MUV_Lucas_FP0, MUV_Lucas"]}
{"id": "C118", "title": "Results do not depend on the system of units", "statement": "The dimensional formulas of the flow, relief-valve, diffusion, wall-resistance, ideal residence-time and step-growth modules are dimensionally homogeneous: when the units of mass, length, time, temperature and amount are changed, and all arguments are converted, the result is the old result converted, and a call that raised still raises. This covers every branch (laminar and turbulent, critical and subcritical relief flow, flashing and not), so no threshold or constant hides a unit.", "quantifier": "For every input and every positive change of units (no range on the inputs other than positive scale factors).", "why_tests_cant": "It is a relation between two calls for a continuum of scale factors, through branches on Reynolds numbers and pressure ratios; a test in SI units cannot see a hidden unit in a constant or a threshold.", "anchors": ["src/polykin/flow/friction.py", "src/polykin/flow/rheology.py", "src/polykin/flow/prv.py", "src/polykin/hmt/diffusion.py", "src/polykin/hmt/hex.py", "src/polykin/hmt/correlations.py", "src/polykin/reactors/rtd.py", "src/polykin/stepgrowth/solutions.py"]}
{"id": "C119", "title": "Corresponding states", "statement": "The equations of state and the corresponding-states correlations are functions of reduced variables: scaling T with Tc, and P with Pc (and the volume with Tc/Pc), leaves Z, the fugacity coefficients and the reduced forms of vapour pressure, heat of vaporisation, liquid volume and viscosity unchanged, and scales the dimensional results by the corresponding power.", "quantifier": "For every component list, composition, state and positive scale factors of temperature and pressure; it fails for cubic equations of state with binary interaction parameters, whose fugacity coefficients change with the unit of pressure.", "why_tests_cant": "A relation between two calls over a continuum of scale factors; the tests only use SI values of a few substances, for which the unit-dependent term goes unnoticed.", "anchors": ["src/polykin/thermo/eos/cubic.py", "src/polykin/thermo/eos/virial.py", "src/polykin/properties/vaporization/dhvl.py", "src/polykin/properties/vaporization/pvap.py", "src/polykin/properties/pvt/volume.py", "src/polykin/properties/viscosity/vapor.py", "src/polykin/properties/thermal_conductivity/vapor.py"]}
{"id": "C120", "title": "Repeated integrals of the complementary error function", "statement": "ierfc(x) is the integral of erfc from x to infinity and i2erfc(x) the integral of ierfc from x to infinity; both are positive and strictly decreasing, and the cut-off to zero above x = 30 changes them by less than exp(-900).", "quantifier": "For every real x.", "why_tests_cant": "The defining improper integrals over a continuum of arguments; the tests check single values.", "anchors": ["src/polykin/math/special.py: ierfc, i2erfc"]}
{"id": "C121", "title": "Diffusion profiles and uptakes solve the diffusion problem", "statement": "The profiles for constant surface concentration (sheet, sphere away from its centre, semi-infinite medium) satisfy Fick's second law at every position and every time other than the change of series at Fo = 1/4, equal the surface value at the surface up to 2^-64, are even, and start from zero inside. The uptakes are the averages of the profiles within 1e-13, increase with time and join at Fo = 1/4 within 1e-7, start as 2 sqrt(Fo/pi) and 6 sqrt(Fo/pi) - 3 Fo, and approach 1 exponentially.", "quantifier": "For every Fourier number and position.", "why_tests_cant": "A partial differential equation, integrals and limits over a continuum; a test compares a few values.", "anchors": ["src/polykin/hmt/diffusion.py: profile_constc_sheet, profile_constc_sphere, profile_constc_semiinf, uptake_constc_sheet, uptake_constc_sphere"]}
{"id": "C122", "title": "Radical populations behind the average number of radicals per particle", "statement": "For every alpha > 0 and m > 0 there are positive populations N_n adding up to one that are stationary under entry (alpha), desorption (m per radical) and pairwise termination (n(n-1)), and their mean is the value returned by nbar_Stockmayer_OToole. That value is strictly increasing in alpha, strictly decreasing in m, positive, below alpha/m, and above 1/2 without desorption. nbar_Li_Brooks is never above it and never more than 4 % below it.", "quantifier": "all alpha > 0 and all m >= 0 (m > 0 for the populations), for the modified Bessel functions given by their power series", "why_tests_cant": "The balance has infinitely many equations, and the 4 % bound and the monotonicity are over an unbounded two-parameter domain; the tests compare the two functions at one or two points.", "anchors": ["src/polykin/kinetics/emulsion/nbar.py: nbar_Stockmayer_OToole, nbar_Li_Brooks"]}
{"id": "C123", "title": "Enough terms in the diffusion series", "statement": "The fixed number of terms kept by the diffusion profiles and uptakes is enough: each of the two infinite series (short times below Fo = 1/4, long times from there on) converges, and the value returned is within 1e-16 of its sum (1e-14 for uptake_constc_sheet).", "quantifier": "every Fo > 0, every position in the sheet, every position in the sphere at least eps from the centre, and the centre for Fo >= 1/4 (the centre uses the long-time series at every time, see C58)", "why_tests_cant": "The comment in the code says four terms are sufficient for convergence; the error is a tail of a series over a continuum of times and positions.", "anchors": ["src/polykin/hmt/diffusion.py: profile_constc_sheet, profile_constc_sphere, uptake_constc_sheet, uptake_constc_sphere"]}
{"id": "C124", "title": "Fallback moments and cumulative distributions", "statement": "The general moment and cdf that a chain-length distribution inherits are correct: between integer limits the discrete helper sums k^m p(k) over the closed range, so neighbouring ranges share their common length; the inherited cdf is zero below length 1, nondecreasing, between 0 and 1, constant between integers with jump k^m p(k)/lambda_m, and tends to 1; the continuous cdf has derivative x^m p(x)/lambda_m; Flory's and Poisson's own moments and cdfs agree with the inherited ones at every chain length; raising the order never raises the cdf, so the mass cdf lies below the number cdf; and the helper returns the normalised partial moment its docstring defines.", "quantifier": "all nonnegative pdfs with a finite positive moment, all orders, all chain lengths, all DPn", "why_tests_cant": "The statement ranges over every pdf a subclass may supply and infinite sums; the shipped analytical classes override the fallback, so no test exercises it.", "anchors": ["src/polykin/distributions/base.py", "src/polykin/distributions/analyticaldistributions.py"]}
