{
 "claims": [
  {
   "property": "C01",
   "status": "partial",
   "theorems": [
    "C01_check_bounds_partial",
    "C01_two_dim_arrays",
    "C01_range_error_refuted"
   ],
   "note": "Acceptance set and returned value fully characterised; RangeError proved for numbers, 1-D arrays, lists and one-column arrays. Finding: out-of-range 2-D arrays with >= 2 columns raise ValueError (ambiguous truth value) and 0-d arrays TypeError instead of RangeError."
  },
  {
   "property": "C02",
   "status": "proved",
   "theorems": [
    "C02_temperature",
    "C02_pressure",
    "C02_valid_range"
   ],
   "note": ""
  },
  {
   "property": "C03",
   "status": "proved",
   "theorems": [
    "C03_brent_success_is_enclosure",
    "C03_brent_continuous_root",
    "C03_brent_converges"
   ],
   "note": "Exact-arithmetic model of the full Brent loop; includes a guaranteed convergence bound (J+2)(2J+3) iterations."
  },
  {
   "property": "C04",
   "status": "proved",
   "theorems": [
    "C04_brent_stays_in_bracket",
    "C04_brent_total_and_counted",
    "C04_brent_maxiter_zero"
   ],
   "note": "All branches incl. ZeroDivision/UnboundLocal error values; maxiter=0 does not return."
  },
  {
   "property": "C05",
   "status": "proved",
   "theorems": [
    "C05_newton",
    "C05_newton_maxiter_zero",
    "C05_newton_affine"
   ],
   "note": "Complex callback modelled by its real and imaginary parts."
  },
  {
   "property": "C06",
   "status": "partial",
   "theorems": [
    "C06_secant_partial",
    "C06_secant_affine",
    "C06_secant_consistency_refuted"
   ],
   "note": "Finding: zero slope between the two guesses returns x=f=NaN (scalar.py:195-202,228). All other runs are consistent."
  },
  {
   "property": "C07",
   "status": "proved",
   "theorems": [
    "C07_wegstein_result",
    "C07_wegstein_steps",
    "C07_wegstein_affine"
   ],
   "note": "Exact real arithmetic. maxiter=0 raises UnboundLocalError (C07_wegstein_maxiter0)."
  },
  {
   "property": "C08",
   "status": "partial",
   "theorems": [
    "C08_anderson_result_partial",
    "C08_anderson_steps",
    "C08_anderson_affine",
    "C08_anderson_maxiter1_refuted"
   ],
   "note": "Holds for every maxiter>=2 and every least-squares outcome. Finding: maxiter=1 raises UnboundLocalError instead of returning a result (anderson.py:166 uses the unbound loop variable)."
  },
  {
   "property": "C09",
   "status": "partial",
   "theorems": [
    "C09_residual_partial",
    "C09_residual_pure_newton",
    "C09_line_search_refuted",
    "C09_dogleg_refuted"
   ],
   "note": "f=f(x), tolerance on success and niter<=maxiter proved for all runs except those ending with a failed global step. Finding: after a failed line search or dogleg step the returned f is the residual of the rejected trial point, not of the returned x. The linear algebra (QR, Broyden) is an oracle."
  },
  {
   "property": "C10",
   "status": "proved",
   "theorems": [
    "C10_centered_exact",
    "C10_centered_cubic_error",
    "C10_complex_exact",
    "C10_jacobian_affine",
    "C10_jacobian_columns",
    "C10_centered_error",
    "C10_complex_error",
    "C10_jacobian_error"
   ],
   "note": "Exact real arithmetic (no rounding)."
  },
  {
   "property": "C100",
   "status": "partial",
   "theorems": [
    "C100_accepts",
    "C100_mass",
    "C100_int_refuted",
    "C100_density",
    "C100_cdf",
    "C100_scale",
    "C100_nonnegative",
    "C100_negative_refuted",
    "C100_kinds"
   ],
   "note": "Finding: positive data can give a density that is negative at every data point (the spline through 1, 2, 1, 1 at the lengths 1, 2, 3, 100 has a negative integral), and an integer array of molar masses raises where the same float array is accepted. Proved: the accepted tables, normalisation of every kind, the link between the kinds, the values at the data points, the cumulative distribution, invariance under scaling, and, where the spline is not negative, positivity, monotone cumulative distributions and ordered averages within the data."
  },
  {
   "property": "C101",
   "status": "partial",
   "theorems": [
    "C101_discrete",
    "C101_zero_refuted",
    "C101_mean_refuted",
    "C101_range",
    "C101_shift",
    "C101_range_refuted",
    "C101_law",
    "C101_shift_sz",
    "C101_lognormal_quantile",
    "C101_inverse_transform"
   ],
   "note": "Finding: LogNormal and SchulzZimm round a continuous variate, so a chain of length zero has positive probability for all parameters, and the mean of the sampled lengths is below DPn (closed form for PDI = 2). Finding: their default range is shifted by one from the quantiles; for DPn = 10 and PDI = 1.0001 it lies above 99.99 % of the chains. Proved: Flory and Poisson lengths are at least one, the mean of a Flory sample is DPn, and their default ranges are the quantiles."
  },
  {
   "property": "C102",
   "status": "partial",
   "theorems": [
    "C102_start",
    "C102_constraints",
    "C102_returned",
    "C102_solution_refuted",
    "C102_raises",
    "C102_bounds",
    "C102_start_refuted",
    "C102_one",
    "C102_start_point"
   ],
   "note": "Finding: the returned components are those of the last evaluation of the objective, not of the solution of the optimiser. Finding: the starting point may violate the bounds passed to the optimiser. Proved: spacing and order of the starting lengths, meaning of the constraints, what is returned for every trace, no error within the bounds, the error outside the domain, and that the weight of a single component has no effect."
  },
  {
   "property": "C103",
   "status": "partial",
   "theorems": [
    "C103_update",
    "C103_moments",
    "C103_rate",
    "C103_raises",
    "C103_order",
    "C103_additive",
    "C103_rates",
    "C103_constructor",
    "C103_dimension",
    "C103_system_raises",
    "C103_sum_raises",
    "C103_system_refuted",
    "C103_sum_refuted",
    "C103_mutation_refuted",
    "C103_dimension_refuted",
    "C103_kinds"
   ],
   "note": "Moment balance, monomer balance, order independence and additivity proved. Finding: no reaction has a species method, so a system of one or more reactions cannot be constructed, and one built by adding to the empty system has dimension 0 and raises; adding a reaction changes the system in place without the check for repetition; a termination cannot be instantiated; with a species method the dimension counts repeated species."
  },
  {
   "property": "C104",
   "status": "partial",
   "theorems": [
    "C104_accepts",
    "C104_rejects",
    "C104_values",
    "C104_error",
    "C104_model",
    "C104_upper_refuted",
    "C104_shape_refuted",
    "C104_failure_refuted"
   ],
   "note": "Accepted conversions, values, error and start proved. Finding: compositions above 1 are returned (only the lower bound is clipped); the rows are the initial values, not the conversions as documented; on failure the method of the model returns as many nan as conversions even for several initial values, where the function raises."
  },
  {
   "property": "C105",
   "status": "partial",
   "theorems": [
    "C105_rejects",
    "C105_estimate",
    "C105_two",
    "C105_intervals",
    "C105_covariance",
    "C105_weight_scale",
    "C105_swap",
    "C105_scale",
    "C105_zero",
    "C105_cumulative",
    "C105_odr",
    "C105_noise",
    "C105_exact_raises",
    "C105_zero_conversion_refuted",
    "C105_pure_refuted",
    "C105_alpha_refuted",
    "C105_unsorted_refuted",
    "C105_exact_refuted",
    "C105_bounds_refuted",
    "C105_odr_objective",
    "C105_two_success",
    "C105_quadratic",
    "C105_circular_small"
   ],
   "note": "Reported quantities proved. Finding: F(x) data at zero conversion are compared with the feed composition; pure-monomer data give LinAlgError; the significance level is not checked without a confidence region; unsorted drift data raise; noise-free data raise ValueError when the exact region is requested; ratios outside [1e-3, 100] cannot be found. For a quadratic sum of squares the linear and the exact region share their boundary and the exact search finds it (t at least 0.63 sqrt(2F), as for the usual significance levels). Finding: at alpha = 0.99 the search started from the confidence interval stalls at the guess, and the exact region is at least eight times too small."
  },
  {
   "property": "C106",
   "status": "partial",
   "theorems": [
    "C106_pure",
    "C106_isolated",
    "C106_same",
    "C106_growth",
    "C106_write_refuted"
   ],
   "note": "Finding: roots_xtanx/roots_xcotx return the array stored in their cache. After roots_xtanx(3, 4) a caller who sets its first element to 0.001 makes uptake_convection_sheet(0.2, 3) return a number below -1000 instead of one between 0 and 1, for the rest of the process."
  },
  {
   "property": "C107",
   "status": "partial",
   "theorems": [
    "C107_accepts",
    "C107_values",
    "C107_copied",
    "C107_redlich",
    "C107_k_reads",
    "C107_shared_refuted",
    "C107_k_refuted",
    "C107_dims_refuted",
    "C107_parameters"
   ],
   "note": "Finding: array parameters are captured, not copied, so a later assignment by the caller changes the object. Finding: the interaction matrix is never checked: a 1x1 matrix for two components is accepted and raises IndexError in the first mixture calculation. Finding: two-dimensional parameters are accepted."
  },
  {
   "property": "C108",
   "status": "partial",
   "theorems": [
    "C108_init",
    "C108_complete",
    "C108_unknown",
    "C108_physical",
    "C108_monotone",
    "C108_vs",
    "C108_units",
    "C108_history",
    "C108_shared_refuted"
   ],
   "note": "The whole table, all ranges, all histories without in-place changes. Finding: get_database returns the cached table itself, so a caller who modifies it changes the polymers returned by later from_database calls."
  },
  {
   "property": "C109",
   "status": "partial",
   "theorems": [
    "C109_critical",
    "C109_AB",
    "C109_isotherm",
    "C109_alpha_critical",
    "C109_alpha_reduced",
    "C109_graboski",
    "C109_alpha_form",
    "C109_alpha_decreasing",
    "C109_alpha_refuted",
    "C109_cubic_virial",
    "C109_B_increasing",
    "C109_B_critical",
    "C109_Boyle",
    "C109_ideal_fugacity",
    "C109_K_fugacity"
   ],
   "note": "Finding: the attraction of the acentric equations (SRK, PR) vanishes at T = Tc (1 + 1/f)^2 and rises again beyond it, so alpha is not decreasing at all temperatures (proved decreasing up to that temperature)."
  },
  {
   "property": "C11",
   "status": "proved",
   "theorems": [
    "C11_forward_symmetric",
    "C11_forward_exact",
    "C11_centered_symmetric",
    "C11_centered_exact",
    "C11_centered_error",
    "C11_forward_error"
   ],
   "note": "Exact real arithmetic; work-vector perturb/restore modelled step by step."
  },
  {
   "property": "C110",
   "status": "partial",
   "theorems": [
    "C110_pdf_inputs",
    "C110_cdf_inputs",
    "C110_scale",
    "C110_mixture_range",
    "C110_pure",
    "C110_same_figure",
    "C110_repeatable",
    "C110_figure",
    "C110_growth",
    "C110_reset",
    "C110_flory_wide",
    "C110_contains",
    "C110_repeat_refuted",
    "C110_zero_refuted",
    "C110_iter_refuted",
    "C110_points"
   ],
   "note": "Finding: plot multiplies the upper end of the cached default range by ten in place when an analytical distribution whose range exceeds three decades (every Flory distribution with DPn >= 200) is plotted over chain length on a logarithmic axis, so that each repetition shows a tenfold longer axis and later plots of the object in molar mass or inside a mixture are affected as well, until a parameter is assigned. Findings: a range starting at zero is accepted and then fails for kind gpc; iterating over a mixture is a TypeError because __iter__ returns the dictionary. All other plots are proved to leave every object unchanged and to be repeatable."
  },
  {
   "property": "C111",
   "status": "partial",
   "theorems": [
    "C111_range",
    "C111_objects",
    "C111_plot",
    "C111_default",
    "C111_points",
    "C111_unbounded_refuted",
    "C111_zero_refuted"
   ],
   "note": "Finding: a half-infinite range such as (300, inf) is accepted but its default plot consists of nan and inf abscissae only; the Arrhenius plot of an equation with Tmin = 0 starts at an infinite abscissa. Proved: the accepted ranges, the value and warning of each equation type, the plotted curve and the rejected plot ranges for all finite ranges and for the default (0, inf)."
  },
  {
   "property": "C112",
   "status": "partial",
   "theorems": [
    "C112_rejects",
    "C112_Mayo",
    "C112_drift",
    "C112_kp",
    "C112_mirror",
    "C112_auto_refuted",
    "C112_start_refuted",
    "C112_grid",
    "C112_empty"
   ],
   "note": "Finding: with any data set present, plot(\"drift\", f0=...) and plot(\"kp\", T=...) ignore the given f0 and T and draw nothing when no data set is of that kind; the drift curve of a data set starts at conversion 0 with the composition of the first sample, so it misses the points when the first sample was taken later. Proved: rejected arguments, exactly what is drawn for each kind, mirror image for the other monomer."
  },
  {
   "property": "C113",
   "status": "partial",
   "theorems": [
    "C113_newton",
    "C113_newton_quadratic",
    "C113_secant",
    "C113_wegstein",
    "C113_wegstein_refuted",
    "C113_anderson_refuted",
    "C113_secant_refuted",
    "C113_secant_local"
   ],
   "note": "Finding: a contraction of the line with factor 0.81 on which fixpoint_wegstein with default settings, and fixpoint_anderson with m = 1, visit the same four points for ever, although direct substitution converges; likewise root_secant for a function with slopes between 0.19 and 1. Proved: convergence of Newton and secant on increasing convex functions with explicit bounds, quadratic convergence, convergence of the secant method from any two points around the root when the slopes there vary by less than a factor of two, and convergence of the bounded Wegstein iteration whenever the admitted acceleration factors keep the step contracting."
  },
  {
   "property": "C114",
   "status": "proved",
   "theorems": [
    "C114_Wilson",
    "C114_Ambrose_Walton",
    "C114_Lee_Kesler"
   ],
   "note": "Exact reals; Lee-Kesler with the acentric factor defined from the predicted curve."
  },
  {
   "property": "C115",
   "status": "partial",
   "theorems": [
    "C115_Vetere_scale",
    "C115_Vetere_pos",
    "C115_Vetere_Pc",
    "C115_arguments",
    "C115_any_doubling",
    "C115_any_window",
    "C115_ester",
    "C115_polar_mass",
    "C115_acid_mass",
    "C115_hydrocarbon",
    "C115_hydrocarbon_decade",
    "C115_acid_refuted"
   ],
   "note": "Finding: the acid/alcohol correlation returns a negative enthalpy (M = 32 g/mol, Tb = 600 K) without an error or warning; no range of validity is documented or checked."
  },
  {
   "property": "C116",
   "status": "partial",
   "theorems": [
    "C116_lines",
    "C116_aligned",
    "C116_faithful",
    "C116_composite",
    "C116_half_length",
    "C116_terminal",
    "C116_matrix",
    "C116_matrix_empty",
    "C116_table",
    "C116_empty",
    "C116_colored",
    "C116_table_refuted",
    "C116_results",
    "C116_results_aligned",
    "C116_root",
    "C116_vector_root",
    "C116_flash"
   ],
   "note": "Finding: a DataDistribution component (16-character class name in a 12-character column) breaks the alignment of the component table. An empty matrix is printed as the empty string."
  },
  {
   "property": "C117",
   "status": "partial",
   "theorems": [
    "C117_low_pressure_factor",
    "C117_positive",
    "C117_positive_pure",
    "C117_pressure_subcritical",
    "C117_pressure_supercritical",
    "C117_low_pressure",
    "C117_negative",
    "C117_liquid_refuted",
    "C117_jump_refuted"
   ],
   "note": "Positivity, monotonicity and low-pressure limits proved. Finding: above the critical pressure and for 0.25 <= Tr <= 0.75 the returned viscosity is negative (no range check); on the isotherm Tr = 0.9 it jumps by more than 10 % at the critical pressure."
  },
  {
   "property": "C118",
   "status": "proved",
   "theorems": [
    "C118_tube",
    "C118_Hagen_Poiseuille",
    "C118_packed_bed",
    "C118_Lockhart_Martinelli",
    "C118_Mueller_Bonn",
    "C118_Stokes",
    "C118_drag",
    "C118_power_law",
    "C118_Cross",
    "C118_Cross_modified",
    "C118_Carreau_Yasuda",
    "C118_relief_gas",
    "C118_relief_2phase",
    "C118_relief_liquid",
    "C118_relief_subcooled",
    "C118_rtd_F",
    "C118_rtd_E",
    "C118_semiinf",
    "C118_plane_wall",
    "C118_cylindrical_wall",
    "C118_composite",
    "C118_cylinder_bank",
    "C118_Case_1",
    "C118_Case_3",
    "C118_Case_5_8",
    "C118_Case_6_7",
    "C118_Case_9",
    "C118_Case_10_11",
    "C118_Stockmayer_mass",
    "C118_Stockmayer_batch",
    "C118_Flory",
    "C118_Miller_1_mass",
    "C118_Miller_1_batch",
    "C118_Miller_2"
   ],
   "note": "Unit changes of mass, length, time (and temperature, amount where they occur) for friction, rheology, relief valves, diffusion, walls, ideal residence-time distributions and step-growth averages."
  },
  {
   "property": "C119",
   "status": "partial",
   "theorems": [
    "C119_virial",
    "C119_cubic",
    "C119_cubic_phi",
    "C119_cubic_k_refuted",
    "C119_vapour_pressure",
    "C119_vaporisation",
    "C119_Rackett",
    "C119_Jossi",
    "C119_Dean_Stiel",
    "C119_Lucas",
    "C119_Stiel_Thodos"
   ],
   "note": "Finding: with interaction parameters supplied (even all zero) the fugacity coefficients of the cubic equations of state depend on the unit of pressure, because the interaction sum adds square roots of a where a is needed."
  },
  {
   "property": "C12",
   "status": "proved",
   "theorems": [
    "C12_scalex"
   ],
   "note": ""
  },
  {
   "property": "C120",
   "status": "proved",
   "theorems": [
    "C120_ierfc",
    "C120_i2erfc",
    "C120_shape"
   ],
   "note": "Positivity holds up to the cut-off at x = 30; the values are 0 above."
  },
  {
   "property": "C121",
   "status": "proved",
   "theorems": [
    "C121_Fick_sheet",
    "C121_Fick_sphere",
    "C121_Fick_semiinf",
    "C121_boundary_sheet",
    "C121_boundary_sphere",
    "C121_initial_sheet",
    "C121_uptake_sheet",
    "C121_uptake_sphere",
    "C121_joint",
    "C121_monotone",
    "C121_early",
    "C121_late"
   ],
   "note": "Both series of every profile solve the diffusion equation term by term; the averages are computed exactly with ierfc and i2erfc. The exact centre of the sphere is excluded here (see C58)."
  },
  {
   "property": "C122",
   "status": "proved",
   "theorems": [
    "C122_Smith_Ewart",
    "C122_Li_Brooks_deviation",
    "C122_monotone"
   ],
   "note": "Smith-Ewart populations from the series of the Bessel functions; the 4 % bound by comparing the differential equations of the two curves."
  },
  {
   "property": "C123",
   "status": "proved",
   "theorems": [
    "C123_sheet",
    "C123_sphere",
    "C123_uptake_sheet",
    "C123_uptake_sphere"
   ],
   "note": "Geometric bound of the tails; ierfc cut off at 30 changes the short-time sums by at most exp(-900) per term."
  },
  {
   "property": "C124",
   "status": "partial",
   "theorems": [
    "C124_range",
    "C124_adjacent",
    "C124_cdf",
    "C124_flory",
    "C124_flory_between",
    "C124_continuous",
    "C124_normalisation_refuted",
    "C124_poisson",
    "C124_dominance",
    "C124_mass_below_number"
   ],
   "note": "Sums and integrals are exact; mpmath.nsum truncates a finite limit to an integer. Findings: the docstring of _moment_quadrature divides by the moment but the code does not (its callers do). Between two chain lengths Flory's closed cdf lies strictly between the two steps of the inherited one (C124_flory_between)."
  },
  {
   "property": "C13",
   "status": "proved",
   "theorems": [
    "C13_covers_interval",
    "C13_exact_polynomial",
    "C13_exponential_factor",
    "C13_other_orders",
    "C13_converges_order1",
    "C13_converges_order2",
    "C13_converges_order4"
   ],
   "note": ""
  },
  {
   "property": "C14",
   "status": "partial",
   "theorems": [
    "C14_backward_refuted",
    "C14_backward_actual",
    "C14_backward_negative_step_partial"
   ],
   "note": "Finding: for tf<t0 with h>0 ode_rk silently performs one forward step of length in [0,h) instead of integrating backwards or raising. Exact with h<0."
  },
  {
   "property": "C15",
   "status": "partial",
   "theorems": [
    "C15_simplify_partial",
    "C15_tol0_collinear_partial",
    "C15_all_close",
    "C15_invalid",
    "C15_closed_polyline_refuted",
    "C15_negative_tol_refuted"
   ],
   "note": "Proved for every polyline and tol>=0 except where the two surrounding kept vertices coincide. Findings: on closed polylines distances are nan and all interior vertices are dropped; tol<0 recurses forever."
  },
  {
   "property": "C16",
   "status": "proved",
   "theorems": [
    "C16_never_stale"
   ],
   "note": "Every answer of any query program after any history of constructions, assignments and queries equals the answer of a freshly built object with the current attributes, for any family (class-level cache and cached range modelled)."
  },
  {
   "property": "C17",
   "status": "proved",
   "theorems": [
    "C17_rejected_assignment"
   ],
   "note": "Rejected assignments raise RangeError and leave every object and cached answer unchanged."
  },
  {
   "property": "C18",
   "status": "partial",
   "theorems": [
    "C18_Flory",
    "C18_Poisson",
    "C18_LogNormal",
    "C18_SchulzZimm",
    "C18_zero_M0_refuted"
   ],
   "note": "Proved for every parameter set with M0 > 0. Finding: M0 = 0 passes the bounds check, but Mw then raises ZeroDivisionError."
  },
  {
   "property": "C19",
   "status": "proved",
   "theorems": [
    "C19_flory_moments",
    "C19_flory_polylog",
    "C19_flory_cdf",
    "C19_flory_cdf_shape",
    "C19_flory_mass_pdf",
    "C19_flory_monodisperse_refuted"
   ],
   "note": "All orders (orders >= 5 given polylog's series). Additional finding outside the property's range: DPn = 1 is accepted but moments of order >= 5 raise ZeroDivisionError."
  },
  {
   "property": "C20",
   "status": "proved",
   "theorems": [
    "C20_Flory_reports",
    "C20_Poisson_reports",
    "C20_LogNormal_reports",
    "C20_SchulzZimm_reports",
    "C20_poisson_moments",
    "C20_poisson_cdf",
    "C20_gamma_exists"
   ],
   "note": "gammaln and gammaincc are arguments specified at positive integers. Poisson sums need DPn > 1 (the code takes log(0) at DPn = 1)."
  },
  {
   "property": "C21",
   "status": "proved",
   "theorems": [
    "C21_individual",
    "C21_averages",
    "C21_mixture"
   ],
   "note": "Mixtures need a common M0."
  },
  {
   "property": "C22",
   "status": "proved",
   "theorems": [
    "C22_molefrac",
    "C22_averages",
    "C22_pdf_cdf",
    "C22_order_irrelevant",
    "C22_blending_weights",
    "C22_grouping_irrelevant",
    "C22_self_add"
   ],
   "note": "Blending expressions without shared mixtures; sharing is the subject of C23."
  },
  {
   "property": "C23",
   "status": "partial",
   "theorems": [
    "C23_individuals_pure",
    "C23_mixture_left_refuted",
    "C23_mixture_right_refuted",
    "C23_reuse_refuted",
    "C23_always_changes"
   ],
   "note": "Finding: + with a mixture operand updates that mixture's components in place (left or right operand), so a mixture cannot be reused; individuals are untouched (see also C22_blending_weights)."
  },
  {
   "property": "C24",
   "status": "proved",
   "theorems": [
    "C24_moments_of_sum",
    "C24_length_mismatch",
    "C24_comm",
    "C24_assoc",
    "C24_unit",
    "C24_self"
   ],
   "note": "Moments of sums of independent finite variables; algebra for arbitrary moment vectors; closed forms equal the iteration."
  },
  {
   "property": "C25",
   "status": "proved",
   "theorems": [
    "C25_hydro",
    "C25_roundtrip",
    "C25_via",
    "C25_increasing",
    "C25_identity"
   ],
   "note": "All exponents above -1."
  },
  {
   "property": "C26",
   "status": "partial",
   "theorems": [
    "C26_product",
    "C26_product_errors",
    "C26_quotient",
    "C26_scalar",
    "C26_negative_scalar",
    "C26_power",
    "C26_zero_errors",
    "C26_reference",
    "C26_monotone",
    "C26_T0_zero_refuted"
   ],
   "note": "Proved for array coefficients of any shape, all temperatures, units and range warnings, including every error case. Finding: T0 = 0 passes the constructor's bounds check but then every evaluation raises ZeroDivisionError."
  },
  {
   "property": "C27",
   "status": "proved",
   "theorems": [
    "C27_half_call",
    "C27_half_equation",
    "C27_termination",
    "C27_termination_call"
   ],
   "note": "Chain lengths range over the reals >= 1, which contains the integers the library uses."
  },
  {
   "property": "C28",
   "status": "proved",
   "theorems": [
    "C28_range",
    "C28_relabel",
    "C28_monotone",
    "C28_stationary",
    "C28_degenerate",
    "C28_accepts"
   ],
   "note": "Degenerate inputs (pure monomer with zero reactivity ratio) give NaN, as documented by C28_degenerate."
  },
  {
   "property": "C29",
   "status": "partial",
   "theorems": [
    "C29_found",
    "C29_none",
    "C29_generic",
    "C29_missed_refuted",
    "C29_spurious_refuted",
    "C29_trivial_refuted",
    "C29_penultimate_count",
    "C29_two_azeotropes_refuted"
   ],
   "note": "Finding: azeotrope returns None when r1, r2 > 1 although one exists; the generic search can return its lower bracket end 1e-4 as a spurious azeotrope. Ratios within about 1% of one are declared to have no azeotrope in the penultimate class (the terminal class reports it). A penultimate model has at most three azeotropes (unless every composition is one); when it has two, F1 - f1 has the same sign at both ends of the bracket and None is returned (witness with azeotropes at 0.5 and 0.9)."
  },
  {
   "property": "C30",
   "status": "partial",
   "theorems": [
    "C30_transitions",
    "C30_triads",
    "C30_triads_eps",
    "C30_sequences",
    "C30_penultimate",
    "C30_transitions_multi",
    "C30_sequence_multi",
    "C30_transitions_refuted"
   ],
   "note": "Binary, penultimate and multicomponent models. Finding: transitions raises ZeroDivisionError for accepted parameters (r1 = 0 at f1 = 1)."
  },
  {
   "property": "C31",
   "status": "partial",
   "theorems": [
    "C31_composition_kp",
    "C31_implicit",
    "C31_transitions",
    "C31_triads",
    "C31_sequences",
    "C31_triads_refuted"
   ],
   "note": "Finding: triads are normalised per centre in the penultimate class (total 2) and overall in the terminal class (total 1)."
  },
  {
   "property": "C32",
   "status": "proved",
   "theorems": [
    "C32_stationary",
    "C32_from_feed",
    "C32_inputs",
    "C32_binary",
    "C32_ternary",
    "C32_radicals",
    "C32_radicals_ternary"
   ],
   "note": "For every linear solver meeting solve_spec (shown satisfiable by solve_spec_gauss)."
  },
  {
   "property": "C33",
   "status": "proved",
   "theorems": [
    "C33_entries",
    "C33_total",
    "C33_total_one",
    "C33_marginal",
    "C33_zero"
   ],
   "note": "n = 0 raises IndexError (C33_zero)."
  },
  {
   "property": "C34",
   "status": "proved",
   "theorems": [
    "C34_Qe",
    "C34_zero_Q"
   ],
   "note": "Exact arithmetic."
  },
  {
   "property": "C35",
   "status": "proved",
   "theorems": [
    "C35_recovers",
    "C35_identical"
   ],
   "note": "Noise-free Mayo-Lewis data with two distinct feeds give back exactly (r1, r2); identical points raise."
  },
  {
   "property": "C36",
   "status": "partial",
   "theorems": [
    "C36_getvar",
    "C36_history",
    "C36_accepts",
    "C36_getvar_kp_refuted",
    "C36_atomic_refuted",
    "C36_columns",
    "C36_constructor",
    "C36_case_insensitive"
   ],
   "note": "Label handling, rejection and no-duplicates are proved for every history. Findings: getvar applies 1-x to every variable including kp and x, and add_data is not atomic - a list with one bad data set raises after having stored the preceding ones."
  },
  {
   "property": "C37",
   "status": "partial",
   "theorems": [
    "C37_case1_Mn_partial",
    "C37_case3_Mn_partial",
    "C37_case6_Mn",
    "C37_case7_Mn",
    "C37_case8_Mn",
    "C37_case9_Mn",
    "C37_case10_Mn",
    "C37_case11_Mn",
    "C37_stockmayer_Mn",
    "C37_flory_Mn",
    "C37_miller1_Mn",
    "C37_miller2_Mn",
    "C37_case5_noC_partial",
    "C37_case5_refuted",
    "C37_zero_conversion_refuted"
   ],
   "note": "Proved for all solutions except Case_5. Finding: Case_5 uses r_C_B as a molecule ratio although it is documented (and used for the conversion balance) as a group ratio, so Mn is wrong whenever C is present. Finding: Case_1 and Case_3 raise ZeroDivisionError at zero conversion."
  },
  {
   "property": "C38",
   "status": "proved",
   "theorems": [
    "C38_stockmayer_Mw",
    "C38_stockmayer_recursion_solvable",
    "C38_case1_is_stockmayer",
    "C38_case3_Mw",
    "C38_miller1_Mw",
    "C38_equal_sites",
    "C38_miller2_Mw",
    "C38_miller2_binomial",
    "C38_flory_Mw_Mz"
   ],
   "note": "Every solution of the Macosko-Miller equations gives the coded Mw; any number of monomers; binomial moments proved by induction."
  },
  {
   "property": "C39",
   "status": "partial",
   "theorems": [
    "C39_stockmayer_order",
    "C39_stockmayer_gel",
    "C39_flory_order",
    "C39_flory_gel",
    "C39_case1_order",
    "C39_case3_order",
    "C39_miller1_order_partial",
    "C39_miller2_order",
    "C39_miller2_gel",
    "C39_miller1_gel_refuted"
   ],
   "note": "Ordering proved for all six solutions (any number of monomers for Stockmayer); gelation proved for Stockmayer, Flory_Af, Miller_2. Finding: Miller_1 has no gel check and returns negative averages beyond the gel point."
  },
  {
   "property": "C40",
   "status": "proved",
   "theorems": [
    "C40_result",
    "C40_converges",
    "C40_residual",
    "C40_maxiter_zero",
    "C40_absent_nonvolatile_refuted",
    "C40_reported_residual_refuted"
   ],
   "note": "Correctness, convergence bound and derivative for all K>0. Side findings, outside the statement: a component with K=0 and z=0 makes the superheated test fail (C40_absent_nonvolatile_refuted); the reported F can be the residual at an earlier beta than the reported one (C40_reported_residual_refuted); maxiter=0 raises UnboundLocalError."
  },
  {
   "property": "C41",
   "status": "proved",
   "theorems": [
    "C41_PT",
    "C41_PT_ideal",
    "C41_PV",
    "C41_TV",
    "C41_TV_log"
   ],
   "note": "Balances and equilibrium with explicit tolerances for any K-value callback; C41_PT_ideal: guaranteed convergence for composition-independent K."
  },
  {
   "property": "C42",
   "status": "proved",
   "theorems": [
    "C42_euler",
    "C42_derivative",
    "C42_gibbs_duhem",
    "C42_pure",
    "C42_ideal"
   ],
   "note": "Any N, any nonnegative mole numbers (not all zero), any tau and alpha. Derivative theorem includes boundary compositions n_i = 0; Gibbs-Duhem also shows that the derivatives of ln gamma exist."
  },
  {
   "property": "C43",
   "status": "proved",
   "theorems": [
    "C43_euler",
    "C43_derivative",
    "C43_gibbs_duhem",
    "C43_pure",
    "C43_ideal"
   ],
   "note": "Any N and any matrix Lambda with positive entries (always the case for Lambda(T) = exp(...))."
  },
  {
   "property": "C44",
   "status": "proved",
   "theorems": [
    "C44_euler",
    "C44_derivative",
    "C44_gibbs_duhem",
    "C44_pure"
   ],
   "note": "Any N, positive q, r, tau. The derivative is taken at n_i > 0 because gE selects x > 0."
  },
  {
   "property": "C45",
   "status": "proved",
   "theorems": [
    "C45_euler",
    "C45_derivative",
    "C45_two",
    "C45_pure"
   ],
   "note": "Any N, positive sizes, symmetric chi (C51_FH shows chi(T) of a constructed model is symmetric with zero diagonal)."
  },
  {
   "property": "C46",
   "status": "proved",
   "theorems": [
    "C46_sound",
    "C46_complete",
    "C46_pressure",
    "C46_roundtrip",
    "C46_converse",
    "C46_helmholtz",
    "C46_oracle",
    "C46_single"
   ],
   "note": "np.roots is an oracle returning the exact complex roots (C46_oracle shows one exists). The code accepts roots with imaginary part below eps; C46_sound states the resulting residual, which is zero for real roots."
  },
  {
   "property": "C47",
   "status": "partial",
   "theorems": [
    "C47_am_Z",
    "C47_lnphi_derivative",
    "C47_phi_differs",
    "C47_neutral_refuted"
   ],
   "note": "Finding: with k given, phi omits the factor 2 sqrt(a_i)/a_m of the documented formula, so k = 0 and k = None give different fugacity coefficients. Positive: am and Z agree, and ln phi with k=None is the composition derivative of the residual Helmholtz energy."
  },
  {
   "property": "C48",
   "status": "proved",
   "theorems": [
    "C48_pressure",
    "C48_helmholtz",
    "C48_sum_lnphi",
    "C48_gibbs_derivative",
    "C48_helmholtz_derivative",
    "C48_Bmatrix",
    "C48_B_identical",
    "C48_ideal"
   ],
   "note": "Any number of components; ln phi is both the constant-pressure and constant-volume composition derivative."
  },
  {
   "property": "C49",
   "status": "partial",
   "theorems": [
    "C49_fresh_partial",
    "C49_some_attrs",
    "C49_stale_refuted",
    "C49_stale_aT_refuted"
   ],
   "note": "Finding: a(T) and b are cached without regard to the attributes; assigning Tc or Pc after a query leaves stale values. Positive: fresh when assignments precede all queries; in general the value belongs to attributes that were in force at some time."
  },
  {
   "property": "C50",
   "status": "partial",
   "theorems": [
    "C50_frame",
    "C50_history",
    "C50_history_init",
    "C50_diagonal_refuted",
    "C50_sharing_refuted",
    "C50_alias_refuted",
    "C50_capture_refuted",
    "C50_returned_refuted"
   ],
   "note": "Finding: the property is false. Constructors zero the diagonal and overwrite the lower triangle of the caller's arrays in place, keep references to them, and hand out the cached result arrays. Proved: everything else is left unchanged, already normalised matrices are left unchanged, and histories that only write to other arrays always see the construction values."
  },
  {
   "property": "C51",
   "status": "proved",
   "theorems": [
    "C51_stored",
    "C51_NRTL",
    "C51_NRTL_lower",
    "C51_FH",
    "C51_Wilson",
    "C51_accepts",
    "C51_NRTL_accepts",
    "C51_Wilson_accepts",
    "C51_FH_accepts"
   ],
   "note": "Any N, any sharing of arrays between arguments. Entries of tau below the diagonal are those supplied when a, b, e, f share no array with c or d (C50_alias_refuted shows they are not otherwise)."
  },
  {
   "property": "C52",
   "status": "proved",
   "theorems": [
    "C52_HZ",
    "C52_HZ_pure",
    "C52_HZ_scale",
    "C52_Perry",
    "C52_Perry_pure",
    "C52_Li",
    "C52_Li_pure",
    "C52_Li_scale",
    "C52_DVMX",
    "C52_DVMX_pure",
    "C52_DVMX_scale",
    "C52_Perry_scale_refuted"
   ],
   "note": "Identical components follow from the bounds with lo = hi. MULMX2_Perry needs a normalised composition (as documented): C52_Perry_scale_refuted."
  },
  {
   "property": "C53",
   "status": "proved",
   "theorems": [
    "C53_double_sum",
    "C53_upper_only",
    "C53_zero_k",
    "C53_pure",
    "C53_homogeneous",
    "C53_quadratic",
    "C53_pseudocritical_identical",
    "C53_pseudocritical_mean"
   ],
   "note": ""
  },
  {
   "property": "C54",
   "status": "proved",
   "theorems": [
    "C54_beta",
    "C54_alpha",
    "C54_decreasing",
    "C54_beta_positive",
    "C54_positive"
   ],
   "note": ""
  },
  {
   "property": "C55",
   "status": "proved",
   "theorems": [
    "C55_Lee_Kesler",
    "C55_Lee_Kesler_increasing",
    "C55_Wilson",
    "C55_Wilson_increasing",
    "C55_AW_is_Wagner",
    "C55_Wagner",
    "C55_AW",
    "C55_Watson_same",
    "C55_Watson_compose",
    "C55_Watson_decreasing",
    "C55_Watson_Tc",
    "C55_Pitzer_Tc",
    "C55_Rackett_arguments",
    "C55_Rackett_Tc",
    "C55_Rackett_increasing"
   ],
   "note": ""
  },
  {
   "property": "C56",
   "status": "partial",
   "theorems": [
    "C56_cstr",
    "C56_tanks",
    "C56_tanks_moments",
    "C56_one_tank",
    "C56_laminar",
    "C56_laminar_variance",
    "C56_dispersion_low",
    "C56_dispersion_closed",
    "C56_dispersion_high",
    "C56_dispersion_mean_refuted",
    "C56_dispersion_mass_refuted",
    "C56_Pe_laminar",
    "C56_Pe_turbulent"
   ],
   "note": "The stated property is proved in full for the CSTR, tanks in series and laminar flow (with means and variances), and for the dispersion model with quad as an argument of error e. Findings: for Pe <= 100 the mean of the dispersion model is tavg (1 + 2/Pe), not tavg; for Pe > 100 F jumps at t = 0+ and E integrates to slightly less than 1."
  },
  {
   "property": "C57",
   "status": "partial",
   "theorems": [
    "C57_laminar",
    "C57_length",
    "C57_zero_flow_refuted",
    "C57_increasing",
    "C57_reverse_refuted",
    "C57_LM_liquid",
    "C57_LM_gas",
    "C57_LM_both",
    "C57_LM_above",
    "C57_MB_liquid",
    "C57_MB_gas",
    "C57_MB_laminar",
    "C57_MB_no_flow_refuted",
    "C57_MB_positive",
    "C57_MB_negative_refuted"
   ],
   "note": "All reductions and orderings proved for flow in the positive direction. Findings: DP_tube(Q=0) and Mueller-Bonn without flow raise ZeroDivisionError; reverse flow is always taken as laminar; Mueller-Bonn is negative for a viscous liquid with 90 % gas."
  },
  {
   "property": "C58",
   "status": "partial",
   "theorems": [
    "C58_ierfc",
    "C58_sheet",
    "C58_sphere",
    "C58_centre",
    "C58_uptake_sheet",
    "C58_uptake_sphere",
    "C58_semiinf",
    "C58_refuted"
   ],
   "note": "All profiles and uptakes are in [0,1] for every Fourier number and position, and 0 at time zero, except the sphere centre. Finding: at |r| < eps profile_constc_sphere uses the long-time series at every time: it returns -1 at Fo = 0 and a negative value for every Fo <= 1/100 (nonnegative from Fo >= 1/20)."
  },
  {
   "property": "C59",
   "status": "proved",
   "theorems": [
    "C59_composite",
    "C59_plane_wall",
    "C59_cylindrical_wall",
    "C59_cylindrical_limit",
    "C59_plate_continuous",
    "C59_plate_increasing"
   ],
   "note": "Composite diffusivity between its ends and strictly monotone; cylindrical wall sandwiched between the plane wall and the plane wall times di/do, hence the limit; Nu_plate continuous and increasing."
  },
  {
   "property": "C60",
   "status": "partial",
   "theorems": [
    "C60_cross",
    "C60_cross_limit",
    "C60_cross_modified",
    "C60_cross_newtonian_refuted",
    "C60_carreau",
    "C60_power_law",
    "C60_cross_power",
    "C60_WLF",
    "C60_WLF_below_refuted"
   ],
   "note": "Proved for n<1 and, for WLF, above the pole T0-C2. Findings: Cross with n=1 gives mu0/2; WLF below the pole gives a shift factor below 10^-C1 and at the pole raises ZeroDivisionError."
  },
  {
   "property": "C61",
   "status": "proved",
   "theorems": [
    "C61_brent_interpolation"
   ],
   "note": "Over every state; tightened after mutation of the interpolation coefficients survived."
  },
  {
   "property": "C62",
   "status": "proved",
   "theorems": [
    "C62_line_search",
    "C62_cubic_model"
   ],
   "note": ""
  },
  {
   "property": "C63",
   "status": "proved",
   "theorems": [
    "C63_dogleg_step"
   ],
   "note": "Hypotheses: gradient nonzero and R*gradient nonzero (Cauchy point defined), gradient.p<0."
  },
  {
   "property": "C64",
   "status": "proved",
   "theorems": [
    "C64_check_shapes"
   ],
   "note": ""
  },
  {
   "property": "C65",
   "status": "proved",
   "theorems": [
    "C65_check_in_set"
   ],
   "note": "Elements modelled as strings."
  },
  {
   "property": "C66",
   "status": "proved",
   "theorems": [
    "C66_LogNormal",
    "C66_SchulzZimm",
    "C66_gamma_exists"
   ],
   "note": "erf, gamma and incomplete gamma are arguments specified by derivative and recurrence."
  },
  {
   "property": "C67",
   "status": "partial",
   "theorems": [
    "C67_gold_gt1",
    "C67_gold_lt1",
    "C67_gold_bracket",
    "C67_gold_scalar_refuted",
    "C67_gold_probability",
    "C67_gold_tail",
    "C67_gold_poisson",
    "C67_gold_limit",
    "C67_gold_accuracy_refuted",
    "C67_gold_tail_refuted",
    "C67_gold_solution"
   ],
   "note": "Findings: the Poisson shortcut (|r-1| < 1e-3) returns an array for a scalar chain length. The tail sum used for r < 1 and k >= v is cut after 100 terms: for v = 20, r = 0.1, k = 20 the terms still grow there and the returned fraction exceeds 1e40. It stops on the absolute size of a term: for v = 40, r = 0.8, k = 50 the returned fraction (above 1 %) is 3 % too small. C67_gold_tail bounds the error of the tail sum by the next term for all inputs."
  },
  {
   "property": "C68",
   "status": "proved",
   "theorems": [
    "C68_laguerre_moments"
   ],
   "note": "Improper integral as limit of RInt over [0, X]."
  },
  {
   "property": "C69",
   "status": "proved",
   "theorems": [
    "C69_recurrence",
    "C69_Li_Brooks"
   ],
   "note": "The Bessel function iv is an argument with its three-term recurrence and positivity as hypotheses."
  },
  {
   "property": "C70",
   "status": "partial",
   "theorems": [
    "C70_propagation",
    "C70_moments",
    "C70_rate",
    "C70_network",
    "C70_system_refuted",
    "C70_add_refuted"
   ],
   "note": "Finding: ReactionSystem calls reaction.species(), which no class defines, so building a system from any reaction (and adding two reactions) raises AttributeError."
  },
  {
   "property": "C71",
   "status": "proved",
   "theorems": [
    "C71_eyring",
    "C71_negative_entropy",
    "C71_gibbs",
    "C71_prefactor",
    "C71_factor"
   ],
   "note": ""
  },
  {
   "property": "C72",
   "status": "proved",
   "theorems": [
    "C72_terminal",
    "C72_penultimate"
   ],
   "note": "Exact arithmetic."
  },
  {
   "property": "C73",
   "status": "proved",
   "theorems": [
    "C73_balance",
    "C73_azeotrope",
    "C73_direction"
   ],
   "note": "Exact solution of the coded equation; the numerical integrator is not modelled."
  },
  {
   "property": "C74",
   "status": "partial",
   "theorems": [
    "C74_cumulative",
    "C74_zero_refuted"
   ],
   "note": "Finding: at x = 0 the formula returns f10 instead of F1(f10)."
  },
  {
   "property": "C75",
   "status": "proved",
   "theorems": [
    "C75_closure"
   ],
   "note": "Right-hand side and post-processing; the integrator itself is not modelled."
  },
  {
   "property": "C76",
   "status": "proved",
   "theorems": [
    "C76_identifiable",
    "C76_covariance",
    "C76_no_covariance"
   ],
   "note": ""
  },
  {
   "property": "C77",
   "status": "partial",
   "theorems": [
    "C77_unit_weight",
    "C77_weight_refuted"
   ],
   "note": "Finding: the weight divides the scale in ODR (so it enters squared) but multiplies the sum of squares in NLLS."
  },
  {
   "property": "C78",
   "status": "partial",
   "theorems": [
    "C41_PT",
    "C78_outer_tolerance_refuted",
    "C78_update"
   ],
   "note": "Finding: np.allclose keeps its default rtol=1e-5, so the flag converged only means 1e-5 relative accuracy, however small rtol_outer (C78_outer_tolerance_refuted); the accuracy actually guaranteed is in C41_PT."
  },
  {
   "property": "C79",
   "status": "partial",
   "theorems": [
    "C79_nonvolatile",
    "C79_nonvolatile_refuted"
   ],
   "note": "Finding: with a nonvolatile component (K=0) the log-space update gives NaN (0*log 0), so success is only possible in the first outer iteration (C79_nonvolatile), and solvable cases fail (C79_nonvolatile_refuted)."
  },
  {
   "property": "C80",
   "status": "partial",
   "theorems": [
    "C80_pure_component",
    "C80_pure_component_above_300",
    "C80_pure_component_refuted"
   ],
   "note": "Finding: boiling points below 300 K are found exactly, boiling points at or above 300 K always raise ValueError (minimum of an empty selection of positive parameters)."
  },
  {
   "property": "C81",
   "status": "proved",
   "theorems": [
    "C81_mixing_relation",
    "C81_ideal_entropy",
    "C81_NRTL_entropy",
    "C81_Wilson_entropy",
    "C81_UNIQUAC_entropy",
    "C81_FH_entropy",
    "C81_FH_entropy_bound",
    "C81_Wilson_athermal",
    "C81_NRTL_athermal",
    "C81_UNIQUAC_athermal",
    "C81_FH_enthalpy_bound",
    "C81_NRTL_entropy_bound"
   ],
   "note": "For Flory-Huggins an explicit error bound at the step used (eps). For NRTL, Wilson and UNIQUAC convergence of the complex-step quotient as the step tends to 0, plus exactness for athermal parameters at the step used."
  },
  {
   "property": "C82",
   "status": "partial",
   "theorems": [
    "C82_instantiate_refuted",
    "C82_gE_refuted",
    "C82_mixing_refuted",
    "C82_convert",
    "C82_convert_units",
    "C82_gE_shapes"
   ],
   "note": "Finding: the abstract method activity is not implemented, so the class cannot be instantiated; gE raises ValueError for every Ns >= 1, Np >= 1; Dgmix and Dsmix index an int. Proved: the conversions are correct for equally long vectors."
  },
  {
   "property": "C83",
   "status": "proved",
   "theorems": [
    "C83_relations",
    "C83_ideal",
    "C83_quadratic"
   ],
   "note": "Exact reals."
  },
  {
   "property": "C84",
   "status": "partial",
   "theorems": [
    "C84_residual",
    "C84_start",
    "C84_guard",
    "C84_guess_refuted"
   ],
   "note": "Finding: where only one compressibility factor exists K = 1, so Psat returns its starting guess, e.g. 2.9 Pc at T = Tc/4 for Redlich-Kwong. Positive: fugacities agree within the tolerance; guards."
  },
  {
   "property": "C85",
   "status": "partial",
   "theorems": [
    "C85_below_Tc",
    "C85_Rackett",
    "C85_Lucas",
    "C85_Lucas_mixture",
    "C85_KV",
    "C85_KV_refuted",
    "C85_refuted"
   ],
   "note": "Finding: no argument checks, so e.g. n-octane in DHVL_Kistiakowsky_Vetere, Zc > 0.292 in MUV_Lucas (even with dm = 0) and T > Tc give complex or NaN results. The exact domain is proved."
  },
  {
   "property": "C86",
   "status": "partial",
   "theorems": [
    "C86_object",
    "C86_names",
    "C86_returned_last",
    "C86_returned_refuted"
   ],
   "note": "Finding: result['parameters'] is the dictionary mutated by the fit function, i.e. the last evaluated point and not the optimum; the object itself is correct."
  },
  {
   "property": "C87",
   "status": "proved",
   "theorems": [
    "C87_Antoine",
    "C87_base",
    "C87_Antoine_increasing",
    "C87_Antoine_inverse",
    "C87_Rackett",
    "C87_Watson",
    "C87_AlyLee",
    "C87_DIPPR102_Sutherland",
    "C87_DIPPR102_increasing",
    "C87_DIPPR104_increasing"
   ],
   "note": ""
  },
  {
   "property": "C88",
   "status": "partial",
   "theorems": [
    "C88_Lucas_identical",
    "C88_Lucas_nonpolar",
    "C88_ST_domain",
    "C88_ST_increasing",
    "C88_ST_positive",
    "C88_ST_volume",
    "C88_Dean_Stiel_positive",
    "C88_WL_symmetric",
    "C88_WL_pressure",
    "C88_WL_arguments",
    "C88_DL_positive",
    "C88_Hayduk_aqueous_sign",
    "C88_Hayduk_positive_refuted",
    "C88_Stokes_Einstein",
    "C88_ST_identical",
    "C88_ST_single",
    "C88_ST_mixture_refuted",
    "C88_WL_diameter",
    "C88_Jossi",
    "C88_Jossi_zero",
    "C88_Dean_Stiel_increasing",
    "C88_Dean_Stiel_identical",
    "C88_WL_omega",
    "C88_WL_temperature"
   ],
   "note": "Finding: DL_Hayduk_Minhas (aqueous) is negative for solutes above about 650 cm3/mol. Finding: KVMXPC_Stiel_Thodos of a single component equals KVPC_Stiel_Thodos only if Zc = 0.291 - 0.08 w. Everything else holds."
  },
  {
   "property": "C89",
   "status": "partial",
   "theorems": [
    "C89_call",
    "C89_ends",
    "C89_self_bounds",
    "C89_mutual_nonneg",
    "C89_mutual_nonneg_refuted"
   ],
   "note": "Finding: the mutual diffusivity is negative for accepted X > 1/2 and w1 > 1/(2X); nonnegative for X <= 1/2."
  },
  {
   "property": "C90",
   "status": "partial",
   "theorems": [
    "C90_sphere",
    "C90_tube_laminar",
    "C90_cylinder",
    "C90_plate_free_errors",
    "C90_plate_free_increasing",
    "C90_combined_assisted",
    "C90_combined_opposed",
    "C90_combined_refuted",
    "C90_tank",
    "C90_tank_monotone_refuted",
    "C90_bank_rows",
    "C90_bank_monotone_refuted"
   ],
   "note": "Finding: Nu_combined returns a negative number for opposing flows when free convection dominates; the helical-ribbon correlation drops at Re = 13 and the staggered tube bank drops at Re_max = 100; anchor with Re < 12 gives Nu = 0."
  },
  {
   "property": "C91",
   "status": "partial",
   "theorems": [
    "C91_xtanx_roots",
    "C91_xtanx_newton",
    "C91_xtanx_small",
    "C91_xtanx_small_root",
    "C91_xtanx_large",
    "C91_xtanx_interval",
    "C91_uptake_refuted",
    "C91_xcotx_roots",
    "C91_xcotx_newton",
    "C91_xcotx_large",
    "C91_xcotx_interval",
    "C91_exact"
   ],
   "note": "Existence, uniqueness, interval and fixed-point accuracy proved. Finding: for 0 < a <= 1e-10 the stopping test |f| <= tolf holds at the start point, so roots_xtanx returns pi/2 a/(a+1), more than 10000 times below the first root, and uptake_convection_sheet is below -1e9 for such Bi. Not stated: number of Newton steps needed (sol.success is not checked by the code)."
  },
  {
   "property": "C92",
   "status": "proved",
   "theorems": [
    "C92_haaland",
    "C92_turbulent_above_laminar",
    "C92_colebrook_root",
    "C92_colebrook_newton"
   ],
   "note": "Complex step to first order; solver success is proved, accuracy 1e-6 in 1/sqrt f or 1.6e-5 in f."
  },
  {
   "property": "C93",
   "status": "partial",
   "theorems": [
    "C93_packed_bed",
    "C93_drag_above_stokes",
    "C93_terminal",
    "C93_terminal_density",
    "C93_vt_sphere_refuted"
   ],
   "note": "Existence, uniqueness and ordering proved. Finding: the absolute tolerance 1e-6 m/s of vt_sphere makes it return more than 20 times Stokes' velocity for colloidal particles (e.g. 100 nm latex), although the solution is below Stokes'. The packed bed without flow raises ZeroDivisionError."
  },
  {
   "property": "C94",
   "status": "partial",
   "theorems": [
    "C94_gas_critical",
    "C94_gas_flow",
    "C94_gas_backpressure",
    "C94_gas_jump_refuted",
    "C94_steam",
    "C94_liquid_root",
    "C94_liquid_accuracy",
    "C94_liquid_success",
    "C94_liquid_no_convergence_refuted",
    "C94_liquid_low_refuted"
   ],
   "note": "Findings: the gas area drops by about 0.06 % when the back pressure just exceeds the critical pressure (rounded coefficients of the two branches); the liquid loop raises ValueError for extremely viscous liquids although the sizing equation has a unique solution; for low viscosity the viscosity correction exceeds one, so the returned area is smaller than the area without correction. Proved: uniqueness, accuracy 4e-5, convergence for first corrections of at least 1e-4, monotonicity of the gas area within each regime."
  },
  {
   "property": "C95",
   "status": "partial",
   "theorems": [
    "C95_omega_exact",
    "C95_omega_monotone",
    "C95_omega_ratio",
    "C95_omega_ratio_refuted",
    "C95_small_omega_refuted",
    "C95_sub_ratio",
    "C95_sub_limits",
    "C95_sub_high",
    "C95_sub_zero_division_refuted",
    "C95_sub_undersized_refuted"
   ],
   "note": "Findings: in the low subcooling region a back pressure between the saturation and the upstream pressure gives an area smaller than that of the liquid flow (finite even without driving force); 2 ws = 1 divides by zero although the singularity is removable; for omega -> 0 the correlated critical ratio makes the area exceed every multiple of the true one; for omega above about 12500 the critical ratio exceeds 1. Proved: unique maximum of the flux where both flux formulas agree, monotonicity beyond it, bounds of the ratios, limits."
  },
  {
   "property": "C96",
   "status": "partial",
   "theorems": [
    "C96_gradient",
    "C96_newton_step",
    "C96_regularised_step",
    "C96_zero_jacobian",
    "C96_zero_jacobian_refuted",
    "C96_stale_factor",
    "C96_stale_factor_refuted",
    "C96_secant",
    "C96_least_change",
    "C96_returned_jacobian",
    "C96_tri_exists",
    "C96_cho_exists",
    "C96_update_exists",
    "C96_qr_exists",
    "C96_update_orthogonal"
   ],
   "note": "Gradient, Newton step, descent of the regularised step, secant equation and least change are proved for every order. Finding: with a zero Jacobian at x0 the regularised matrix is zero and the LinAlgError of cho_factor leaves the solver (C96_zero_jacobian_refuted). Finding: the regularised branch overwrites R with the Cholesky factor of R^T R + delta while Q is kept, so with broyden_update the factors never represent the Jacobian again until a restart, and the returned Jacobian is wrong (C96_stale_factor, C96_stale_factor_refuted)."
  },
  {
   "property": "C97",
   "status": "partial",
   "theorems": [
    "C97_sheet",
    "C97_sphere",
    "C97_zero",
    "C97_sheet_jump",
    "C97_sphere_jump",
    "C97_jump_refuted"
   ],
   "note": "Bounds, monotonicity and limit proved for the computed eigenvalues (Bessel's inequality plus the root error). Finding: the series is cut after four terms, so the uptake jumps at the start: with Bi = 100 it is at least 0.9 % (sheet) and 2.3 % (sphere) for every positive time. For the sheet with Bi <= 1e-10 the uptake is hugely negative (C91_uptake_refuted)."
  },
  {
   "property": "C98",
   "status": "partial",
   "theorems": [
    "C98_ellipse",
    "C98_reflection",
    "C98_rotation_refuted",
    "C98_accepts",
    "C98_bars",
    "C98_eigh_exists",
    "C98_box"
   ],
   "note": "Finding: the angle is taken from the first row of the matrix of eigenvectors instead of the first column. The patch is the documented ellipse (both inclusions) exactly in the case that the matrix is symmetric, which holds for reflections (determinant -1); for a rotation (determinant +1) the patch is turned to the wrong side: a witness whose boundary reaches below 68 percent of the required value."
  },
  {
   "property": "C99",
   "status": "partial",
   "theorems": [
    "C99_points_partial",
    "C99_scale",
    "C99_translation",
    "C99_ray",
    "C99_circle",
    "C99_stall",
    "C99_stall_refuted",
    "C99_nonpositive",
    "C99_nan_refuted",
    "C99_accepts",
    "C99_angles",
    "C99_ray_general",
    "C99_ray_near",
    "C99_ray_range",
    "C99_star",
    "C99_ellipse",
    "C99_ray_low"
   ],
   "note": "Proved: one point per ray; each is at the boundary value up to 1e-4 or the last two radii agree to rtol; invariance under the unit of S and (explicit width) translation; for S quadratic along the ray and a guess between 0.63 rho and 100 rho the secant iteration succeeds and the radius is right up to the tolerances, likewise for any S whose logarithmic slope varies by less than a factor 1.9 near the boundary; hence all points of circular, elliptical (any orientation, eccentricity bounded by the number of directions) and other slowly varying star-shaped regions are found. Findings: with a guess between rho/20 and rho/9 every ray reports success at the guess and the region is at least eight times too small, without warning (default width, centre (0.4, y), boundary the unit circle); with the default width and a centre whose first coordinate is not positive all points are nan. Missing: S of arbitrary shape far from the boundary, and guesses between rho/9 and 0.63 rho."
  }
 ]
}