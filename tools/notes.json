{
 "C01": "exact arithmetic; scipy.rankdata by its documented semantics",
 "C04": "holds for every method except 'ordinal', where rows of tied values are told apart by position (refuted with a witness)",
 "C10": "the non-strict test is sound and complete up to its tolerance; the strict test accepts a singular matrix and a zero scalar (refuted); is_symmetric's relative tolerance accepts visibly different entries (refuted)",
 "C11": "holds for float-typed states and real values; a nan scalar is stored before the error, and integer parameter arrays truncate later stores (both refuted)",
 "C14": "holds for all histories whose parameter vectors have the right length; the Gaussian setter accepts other lengths and any value (refuted)",
 "C15": "holds for vectors; the StudentParams form and the constructor store df <= 0 (refuted)",
 "C16": "Clayton (theta<>0) and Gumbel proved. Clayton theta=0 raises; Frank's ipsi is wrong for u<=0.01 (its small-input branch is discarded; refuted), elsewhere exact above theta=-36 and within exp(theta) below",
 "C17": "Clayton (theta<>0) and Gumbel proved in every dimension; Frank proved for coordinates above 0.01, refuted at zero coordinates and for theta=0; Clayton theta=0 raises",
 "C18": "Clayton (theta<>0) and Gumbel proved; Frank on (0.01,1]; refuted for Frank with coordinates up to 0.01 (C18_frank_refuted: the cdf at (0,1) is 1)",
 "C20": "bivariate: Clayton and Gumbel; every dimension: Clayton theta>0 and Gumbel via complete monotonicity; Frank on (0.01,1], refuted elsewhere",
 "C21": "proved for theta>0 (Clayton), theta>=1 (Gumbel), theta<>0 (Frank); Clayton with theta<0 returns nan (refuted)",
 "C23": "Clayton and Gumbel proved; Frank's dtau is wrong for every theta except 1/2 (refuted with the exact Debye function)",
 "C24": "Clayton and Frank proved; Gumbel reports 2*2^(1/theta) instead of 2-2^(1/theta) (refuted)",
 "C26": "invariant of every history of assignments; the two-dimensional Clayton constructor accepts theta < -1 (refuted)",
 "C27": "proved for all theta with |theta|>=1e-7 except Clayton theta=-1, which raises (refuted)",
 "C31": "integer arguments (int() conversion of other numbers not modelled)",
 "C32": "holds for n >= 1 with scipy's gamma exact on integers; at n = 0 eulerian and eulerian_all contradict each other (refuted)",
 "C33": "holds for every non-empty coefficient list; the empty list raises (refuted)",
 "C34": "log1mexp/log1pexp exact; log_sum exact on finite columns with any offset, nan on all -inf or +inf columns (refuted)",
 "C35": "neg-eulerian is exact at every order; default / neg-stirling are exact for orders 0..-18 (value = (z d/dz)^n z/(1-z), the series, and its log). From order -19 on the int64 products k!*S(n+1,k+1) wrap around and the default method returns too small a value at every z in (0,1): refuted. C35_log_two_refuted: at order 2 the flag log is ignored.",
 "C36": "bracket, growth, order, success and failure proved for exact reals; a root exactly at an end point is not recognised (refuted)",
 "C37": "every interleaving gives the element-wise result; a float64 contiguous argument is overwritten in place (refuted)",
 "C38": "odd everywhere; periodic on one period around 0 (not at its middle point, where the value depends on the coefficients); nan for every |x| >= 2 pi (refuted)",
 "C67": "exact reals, any coefficient array",
 "C28": "Proved for method direct at every degree; horner at every degree but 20; sort up to degree 21; the Sibuya methods up to degree 20. The derivative theorem ties the coefficients to Derive_n of exp(-t^alpha). Missing (the code is wrong there, with _refuted theorems): sort raises from degree 22 on, horner overflows int64 at degree 20, the Sibuya methods use a wrapped int64 factorial from degree 21 on, alpha=1 is not logged, method log raises for degree 1. Floats are exact reals; int64 wrap-around is modelled.",
 "C29": "Every method gives the polynomial for the degrees where its coefficients are right (C28), pois for every degree >= 2, default up to degree 30. Missing: the default selection picks broken methods for larger degrees (_refuted theorems).",
 "C68": "For one x and any list of positive n. Missing: x or n equal to 0 and alpha = 1 in logarithmic form, where the code is wrong (_refuted theorems).",
 "C25": "mixed derivative of the modelled cdf, in d dimensions. Clayton theta>0: every d. Clayton -1<=theta<0: d=2 off the zero curve. Gumbel: theta=1 every d, theta>1 d<=30. Frank theta>0: d<=19, coordinates above 1/100 for the code's own cdf, whole open cube for the textbook copula. Refuted: Frank theta<0 (nan everywhere), Clayton theta=0 (0 instead of 1), Frank d>=20 (too low at every point with a small coordinate), Gumbel 31<=d<=50 with theta<5/4 (nan at every row), Gumbel 91<=d<=120 with theta>1000/3 (TypeError).",
 "C69": "Frank, Gumbel and Clayton theta<=0 mask invalid rows; Clayton theta>0 does not: refuted.",
 "C39": "heap model with aliasing: the result reads like the right-biased deep merge of the two trees; self-merge, idempotence, associativity and merge_dicts as a left-to-right fold, all with their exact conditions; also shown: grouping matters when a dict meets a plain value, and merge_dicts changes its first argument in place",
 "C40": "the options returned are the documented defaults of the method with the user's values on top, for every method; the caller's nested dictionaries stay as they are, and the dictionary itself if it names a method; refuted part: a non-empty dictionary without 'method' gets that key added. Not in the model: whether scipy.optimize.minimize accepts the resulting keyword names",
 "C41": "scipy's minimize is an arbitrary terminating strategy. An exception leaves summary and labels; parameters after a failing ml fit are those assigned during the search; inversion fits that fail before the assignment leave everything. Refuted: non-convergence and exceptions leave the last point tried in the copula and non-convergence overwrites the summary; an inversion fit whose log-likelihood raises has already overwritten the parameter",
 "C42": "parameters equal the recorded estimate for every optimiser; recorded log-likelihood = scale * log-likelihood for optimisers reporting an evaluated point (so equal for scale 1); failing and nan points never better. Refuted: for scale <> 1 the recorded log-likelihood is not the log-likelihood",
 "C43": "elliptical copulas of dimension >= 3 (itau, and irho for the Gaussian) and Archimedean copulas. Refuted: bivariate elliptical inversion fits always raise TypeError; an integer parameter array truncates the estimate to 0. Kendall's tau, the inversion and the log-likelihood are external functions with stated properties",
 "C44": "all rejections happen before the copula is touched; method names case-insensitive, unknown ones raise; nan entries are not rejected (shown)",
 "C45": "termination in at most 5 rounds, Archimedean starts pass the range check unless nan, elliptical starts are the Pearson correlations. Refuted: a negative average in more than two dimensions raises; an undefined tau gives a nan start C45_inversion_start, C45_infinite_start and C45_clayton_start (T_StartValue) say which number the search returns.",
 "C46": "labelled frames/series, widths, axes, one observation, round trip of samples. Refuted: log_lik of a single observation raises AttributeError; passing the data by keyword always raises. A Series with other labels is silently evaluated by position (shown)",
 "C47": "the two exact names and all others. Refuted: the comparison is case-sensitive",
 "C48": "matrix and two-vector forms, for every scipy correlation function whose results are in [-1,1] or nan (shown satisfiable with Pearson's formula); method and use names",
 "C49": "complete = everything on complete rows, pairwise entries, nan pattern of everything (when scipy's result is a number), all modes equal on complete data",
 "C50": "Draws with u1 >= q^2 are right (C50_small_partial); under u1 < q^2 the code takes the logarithm of a negative number (C50_small_refuted); for alpha < -3 the uniform draws themselves come back (C50_large_refuted).",
 "C51": "Density, log density, validation, normal limit and defaults hold; scalar points, inputs of the wrong width and one-dimensional samples break (three _refuted theorems).",
 "C70": "tau and rho are odd, in (-1,1) and increasing; drho is not the derivative of rho (C70_drho_refuted), whose derivative is given by C70_rho_derivative.",
 "C71": "The frailty equals Kanter's formula and every sampled coordinate is in (0,1); that Kanter's formula has the positive stable law is C104_stable_law.",
 "C72": "Validation and the Pareto tail hold. The log density is the log of the density only when no raw value is 0 or 1 (C72_log_partial); counterexamples in the _refuted theorems. The integrals of aux_f1 are the subject of C90-C92; aux_f2 of C93-C94.",
 "C52": "Points in the closed unit cube; scipy's btdtr is assumed to be the incomplete beta function. Includes non-negative box masses and the counting formula.",
 "C53": "Any documented tie method, data without ties in that column, zero offset, scipy's btdtr as in C52. C53_ties_needed shows the hypothesis is needed.",
 "C54": "u in [0,1): an observed value, an empirical quantile, monotone; u = 1 raises IndexError (C54_one_refuted). Applied to pseudo-observations it returns the data except for dense ranks (C54_dense_refuted).",
 "C73": "Holds at interior points; where every row has density 0 the log version gives nan (C73_log_zero_refuted).",
 "C55": "Product cdf, log version also on the lower faces, density as mixed derivative of the cdf, copula axioms, fit and random. Coordinates are not checked against [0,1] by the code.",
 "C56": "Proved for float input: cdf, pdf, log pdf, chain rule (density of the joint law), margins, samples. Refuted for integer arrays (np.empty_like keeps the integer type, probabilities are truncated to 0: C56_integers_refuted) and for sampling with a joint copula fitted to a DataFrame (C56_random_refuted). The joint copula and scipy's distributions are parameters.",
 "C57": "Names, types, defaults, count, one description for all. Refuted for a parameter dictionary shared by two descriptions: the defaults are written into the user's dictionary (C57_dictionary, C57_shared_refuted); without sharing the margins are independent (C57_separate).",
 "C74": "Each margin keeps its family and is fitted to its own column. Refuted: a failed fit leaves the column names of the rejected DataFrame (sampling then fails) and, if the joint fit raises, the refitted margins.",
 "C58": "The three tests report (k + 1/2)/(N + 1), k the number of simulated statistics at or above the observed one (absolute values in gof_copula); inside (0,1) and never growing with the statistic. Random draws, argsort and the fit are arguments.",
 "C59": "Swapping leaves the statistic unchanged on the grid and on the sample; without ties also the p-value of the multiplier method. Mirror images: any rank method but ordinal. With a grid of size 1 the only point is (1,1) and the statistic is always 0.",
 "C60": "Non-negative, and 0 for data symmetric about a centre (average ranks). The reflection claim is refuted: ranks (1,1),(2,3),(3,2) give 1/9, the reflected ranks 0, because the statistic is evaluated at the rows themselves.",
 "C61": "Out-of-range reads are errors in the model; all three bootstraps are shown to return a result for every sample, tie pattern and bit string, given that argsort returns the positions in some ascending order. C61_ties_kept: the ties of the sample are reproduced.",
 "C75": "Refuted: _sort_data_by_column_inplace sorts every column on its own, so with ties in the data each bootstrap sample is comonotone and the p-value does not depend on the dependence of the fitted copula. The statistic itself is as documented.",
 "C62": "libraries eig cn states what is used of numpy's eigvalsh and statsmodels' cov_nearest (Rayleigh bounds of the spectrum; the result is a covariance matrix); gmc_libraries_case shows that such functions exist. valid is the invariant of the setters, with the tolerances the code uses. C62_sum_refuted and C62_sizes_refuted are two ways around it.",
 "C63": "For two or more clusters the round trip is exact when the weights are strictly inside (0,1) and sum to 1; C63_normalised covers all other valid weights. C63_single_refuted: one cluster cannot be restored. C63_mutation_refuted: to_vector changes its argument.",
 "C64": "C64_mixture for log=False. With log=True the code averages logarithms: C64_log_partial gives the exact relation, C64_log_refuted a mixture where the values differ.",
 "C65": "C65_run is about every run that returns, with any density, quantile function and log-likelihoods; C65_errors lists all ways in which a run can fail. C65_max_iter_refuted and C65_log_lik_refuted: no result with max_iter=0, and the log-likelihood reported belongs to the last and not to the returned parameter. The stopping rule is spelled out for criterion GMCM here and for all three in C130.",
 "C66": "marginal_cdf contains the rational approximation of the error function used by the code, with its rounded sqrt(2). C66_range_refuted: above 1 for accepted weights; C66_inverse_refuted: the inverse raises near 0 although the code asks for extrapolation. C66_random_one_dimension_refuted: with one dimension sampling fails unless every component is drawn exactly once.",
 "C76": "The cdf evaluates the mixture of normal distributions at u itself and not at the quantiles of u. C76_never_a_copula_refuted: for all parameters every value lies strictly between 0 and the sum of weights, so it is not grounded and not 1 at (1,..,1).",
 "C77": "q are the quantiles of the observations; densities are arguments and positive at the observations.",
 "C78": "C78_fit for every outcome of the inner fits. C78_dictionary_refuted: the sizes of a dictionary are not checked. C78_unknown_method_refuted: the method name is checked after the parameters have been replaced.",
 "C79": "labels stands for the answer of sklearn's KMeans. C79_clusters_refuted: an empty group or a group of one observation raises an error about probabilities or symmetry.",
 "C80": "Doubles are exact reals, so the bounds measure branch errors and truncation, not rounding. is_dilog (S_Dilog) fixes the function by its derivative away from 0 and 1, continuity and value at 0; C80_dilogarithm_exists shows that it exists and is unique. The proof includes zeta(2) = pi^2/6. C80_near_one_refuted: within ten machine epsilons below 1 (and the opposite arguments) the value at 1 is returned, which is off by more than 6e-14.",
 "C81": "Doubles are exact reals and decimal literals stand for the decimal numbers, so the bounds measure tables, truncation and branch errors, not rounding. Tables: the polynomial they denote is compared with the Taylor series of t/(e^t-1) by exact rational arithmetic in the Chebyshev basis. Series: the constants at infinity are enclosed by telescoping bounds for sum 1/k^2 and sum 1/k^3.",
 "C82": "Doubles are exact reals and decimal literals stand for the decimal numbers; 2 pi is exact where the code splits it into two doubles. The function is specified by its derivative and its limit at 0 (existence and uniqueness proved). Table: a polynomial with decimal coefficients is tied to x cot x by Taylor bounds of sine and cosine and integrated twice, then compared with the table by integer arithmetic; pi^2 is enclosed by a Machin formula.",
 "C83": "Assumed of scipy: documented univariate and multivariate log densities, ppf inverts the distribution function, numpy's det and inv. Two refutations: the Student cdf always raises NotImplementedError; above 10000 degrees of freedom pdf mixes the normal joint density with t margins and some vertical line does not integrate to 1. Cases: Phi with Plackett's integral, the bivariate Cauchy distribution in closed form, all built in Coq.",
 "C84": "Gaussian: the limits hold for every correlation, also 1 and -1. Student: the true limit 2 T_(nu+1)(-sqrt((nu+1)(1-rho)/(1+rho))) is proved from the double integral and the code, which omits the division by 1+rho, is refuted for every correlation other than 0 (too small for positive, too large for negative); correct at 0 and 1 and for infinite df.",
 "C85": "Frank: the textbook copula, which the code's cdf equals where its generator is not approximated (C18). Clayton theta = -1 (the lower Frechet bound, not differentiable on the diagonal) is left out.",
 "C86": "Assumed of scipy: ppf inverts the normal distribution function and the bivariate normal cdf is the double integral of its density; both are built in Coq for the case. The integrals are evaluated with explicit primitives in each variable, obtained from Plackett's formula.",
 "C87": "Refuted: with one degree of freedom and any correlation in (0, 1/10] the copula with the code's density has a Spearman's rho strictly below the attribute, which is the Gaussian value. The hypotheses on Gamma are its values at 1/2, 1 and 3/2. Existence, uniqueness (C86_unique) and range of Spearman's rho are proved for every copula.",
 "C88": "Textbook copula, as in C85. The inner integral is differentiated under the sign, which leaves an elementary function; the outer one reduces to the two Debye integrals. The error bound uses the Debye tables and series of C81, so it covers the code's own numbers up to float rounding.",
 "C89": "The solver is scipy's brentq, assumed to return a root in a bracket where the function is continuous and changes sign. Entries with 0 < |tau| < 1e-16 are left out: there the bracket grows across 0, where the code divides by zero.",
 "C90": "C90_aux_f1_partial leaves out: |x - zeta| < 1/100, a peak within 14e-15 of pi/2, beta = 1 or -1 with alpha < 1 (there C92 refutes the claim), a bisection midpoint at which the exponent is within 1e-5 of 1 (there the bracket of find_root can fail), alpha = 1 (see C93, C94), and float rounding. Nolan's integral itself is the specification (that it is the density of the law with the stable characteristic function is Nolan's theorem, not proved here; at alpha = 1/2, beta = 1 C90_levy checks it against the Levy density). scipy's quad and brentq are assumed exact.",
 "C91": "Exact reals; holds for every quad and brentq. Arrays: points at the centre are excluded, where the tail approximation is not symmetric. S2 is excluded: C72_mode_refuted.",
 "C92": "np.isclose(uu + ll, 0, 1e-13) in pdf.py:104 should compare uu - ll. For beta = 1, alpha < 1 the bracket is (-pi/2, pi/2), the sum is 0, and the density 0 is returned.",
 "C93": "Nolan's integral is the specification, as in C90. No condition on x. The root only decides where the integral is split, so the root finder need not find a root.",
 "C94": "C94_mirrored_law proves that the specification is mirrored. The code's cut-off sits at u = -1 for both signs of beta; for -1 < beta < 0 and x left of some point no bracket of the 1000 visited by find_root changes sign, and the call raises.",
 "C95": "scipy's minimize is an argument with the hypothesis minimiser of S_Sgd.v; the component densities are arbitrary functions of the entries (entries_only). The quantiles, the objective, the keyword handling and the decoding of the vector are modelled.",
 "C96": "C96_max_iter: for the five methods with default options, in any spelling. C96_max_iter_refuted: for any other method, or when the user gives options, the result does not depend on max_iter. C96_single_refuted: a mixture of one component raises. C96_duplicate_refuted: max_iter inside optim_options raises TypeError.",
 "C97": "is_dilogC (S_DilogC.v) describes the dilogarithm by its derivative along each ray from 0; existence and uniqueness off the cut are proved (C97_dilogarithm_exists). Doubles are exact reals, so the error is that of the series, tables and thresholds, not rounding. The strip 0 < |Im z| < 10 machine epsilons, where the code takes the value on the real axis, is not in the accuracy theorem; C98 is about its part above the cut.",
 "C98": "Refuted: C98_above_the_cut_refuted for every point with 0 < Im z < 10 machine epsilons and Re z >= 1 (the sign of the imaginary part is wrong); C98_angle_refuted on the unit circle, where the angle enters the formula unreduced.",
 "C99": "C99_entrywise holds when the two regions do not overlap. Refuted: the caller's float arrays are overwritten (C99_arguments_overwritten_refuted), and one array passed for both arguments gives the imaginary part in both places (C99_same_array_refuted). Iterations of prange are not interleaved in the model; they touch their own cells only.",
 "C100": "C100_clayton. The distribution enters as an integral: the product of the bounds is the conditional probability because the uniforms of a row are independent, and the mean over the frailty is an improper Riemann integral against the gamma density. The gamma integral is shown to exist for every shape. Negative theta has its own claims.",
 "C101": "Refuted: for theta > 3 the frailty is the uniform draw itself, and an entry is below a number less than 1/4 with probability above 2/3 (C101_frank_margin_refuted); for theta up to 3 a set of draws of positive probability gives rows of nan (C101_frank_nan_refuted).",
 "C102": "Refuted for maximum likelihood: the constraint compares with self._df, which the objective has just set to the first coordinate of the point, so it is satisfied at every evaluated point (C102_satisfied_everywhere_refuted, C102_never_violated_refuted), and from the default start the result has 4.669 degrees of freedom (C102_fixed_refuted). Also KeyError without a key 'constraints' (C102_missing_key_refuted), and the user's list grows with every call (C102_list_grows_refuted). Holds for the inversion methods (C102_inversion) and for minimisers that do not move the first coordinate and start at the present value (C102_kept_partial).",
 "C103": "The copula itself shows what the assignment on values says (C103_refines); only its own array is written (C103_frame); after a successful assignment it has an array of its own (C103_detached); whole matrices never write into an existing array (C103_matrix). Refuted: params are shared without a copy, so the first assignment of one correlation also changes the other copula, without any check of positive semi-definiteness (C103_two_copulas_refuted, with a non-semi-definite result in C103_two_copulas_case), the caller's array or the recorded fit (C103_array_overwritten_refuted), and an inversion fit overwrites a shared array (C103_inversion_refuted).",
 "C30": "Bounds, symmetry, convexity and the representation of the cdf hold. A of a number raises TypeError (C30_number_refuted); dAdu raises TypeError for every argument (C30_dAdu_refuted).",
 "C104": "Proved for theta above 1 + 1e-5 + 1e-8, with the Laplace transform of Kanter's representation proved from scratch (C104_stable_law). Below that np.isclose makes the rows independent uniforms, which is not the copula (C104_near_one_refuted).",
 "C105": "Proved without a seed (C105_rows, C105_mixture, C105_density, C105_copula). With a seed the chi-square variates and the normal rows start from the same state of the generator; under numpy's method for gamma variates the first number of the sample never exceeds sqrt(2 df / 3) (C105_seed_refuted).",
 "C106": "Proved for two or more observations and for all classes that are not elliptical. A single observation of an elliptical copula is a vector, and raises after a fit to a DataFrame or below margins (C106_single_refuted).",
 "C107": "Reproducible for every class. All classes but the Gaussian copula set the global generator (C107_global_state_refuted).",
 "C108": "Proved for all joint copulas but the Gaussian mixture, where to_pobs arrives as max_iter and scale as criteria: the default options and method 'pem' always raise.",
 "C109": "Values proved for every family and form; arrays kept by Clayton, Gumbel and Frank for theta <= 0. Refuted: Frank's psi for theta > 0 writes into the caller's array (a second call gives another value) and refuses integer arrays; Gumbel's itau writes zeros over negative taus and raises at the single tau 1.",
 "C110": "Proved by method and form; refuted: Frank's ipsi takes no number, Gumbel's dtau and Frank's psi no integers, most methods no list by keyword, Frank's itau no number by keyword (keywords are never cast). Clayton's psi with a list by keyword is not modelled.",
 "C111": "Proved for maximum likelihood fits and all classes. Refuted: degrees of freedom taken from an integer array are not shown (a numpy integer is no int); the html of a fit by inversion and of a mixture without parameters raises AttributeError. Layout and number formats are not modelled.",
 "C112": "Proved for two or more dimensions, including that the text denotes nothing else (C112_repr, C112_str). In one dimension the brackets are not closed and the text denotes nothing (C112_one_dimension_refuted, C112_str_one_dimension_refuted).",
 "C113": "Refuted for Clayton, Gumbel, Frank and Student: rho or irho is the object NotImplemented and every such fit raises, leaving the copula as it was. The Gaussian copula is covered by C43_gaussian_irho.",
 "C114": "A fit to a DataFrame sets its names (C114_frame), arrays alone give none (C114_arrays). Refuted: later fits to arrays never remove the names (C114_stale_refuted, C114_samples_refuted).",
 "C115": "Refuted: fit ranks the data again, so 'average', 'min', 'max' and 'dense' give the same result for all data (C115_fit_ties_refuted); verbose cannot be given (C115_verbose_refuted). With to_pobs=False the claim holds (C115_to_pobs).",
 "C116": "Proved for one process and for a pool in which one worker runs all tasks (C116_in_process, C116_one_worker). Refuted in general: workers start from copies of one generator state, tasks with the same turn return the same statistic (C116_pool_refuted, C116_few_statistics_refuted, C116_own_workers_refuted), the caller's generator does not move (C116_repeated_refuted), and at most one task is under way (C116_parallel_refuted).",
 "C117": "Refuted: without ties exch_test seeds numpy's global generator with 8888, forgets its state and always draws the same numbers (C117_exchangeability_refuted); the coins of rad_sym_test come from the C library and a seed does not make it reproducible (C117_seed_refuted). Proved: the other runs leave numpy's generator alone (C117_exchangeability_ties, C117_radial_symmetry).",
 "C118": "C118_law: for every alpha in (0,2) other than 1 and every beta the derivatives of the conditional probabilities given the angle add up to Nolan's density right of zeta; C118_mirror covers the left. C118_normal for alpha = 2. C118_alpha_one_refuted: for alpha = 1 the formula gives the same Cauchy variate for every beta, and the density for beta = 1 is strictly smaller left of -10. C118_defaults_refuted: by default rvs uses parametrisation 1 and pdf parametrisation 0, which differ by a shift for every beta other than 0. Not proved: beta near 0 together with alpha near 1 but not 1, where np.isclose replaces the law by the Cauchy law.",
 "C119": "C119_accuracy: the published bound 2.5e-5 of the approximation (Abramowitz and Stegun 7.1.25) is proved here for every real number, together with the effect of the rounded sqrt(2). C119_sample_margins needs weights that add up to 1 exactly. C119_relative_accuracy_refuted: more than 7.1 standard deviations below every mean the result is at least 3 per cent too large.",
 "C120": "C120_column_order assumes that scipy's coefficient does not depend on the order of its two vectors. C120_names_refuted: a series named 0 is relabelled 'X' because 0 is false in Python; a series named 'Y' next to an unnamed one becomes 'Y1'. Labels are strings and integers.",
 "C121": "C121_round_trip needs margins that scipy.stats has under the name of their class without '_gen'. C121_class_refuted: vonmises and vonmises_line are of one class (a fact about scipy, stated as hypotheses), so a margin 'vonmises_line' comes back as 'vonmises'.",
 "C122": "C122_ascent is about the code's e_step, m_step and gmm_log_likelihood; C122_run about every run that returns. Weights may exceed 1 in sum by the tolerance of the setter at the first step, where the bound is a + n(1 - sum) (later weights add up to 1 exactly). The old and new covariances have to be positive definite. The normal density is assumed to be the documented one, given without determinants by the triangular root of the covariance; that such a density exists and roots are unique is proved (C122_normal_case). Nothing is claimed across steps, since the quantiles change.",
 "C123": "For treatments of ties other than 'ordinal' (with 'ordinal' the equivariance of ranks fails, C04_ordinal_row_equivariance_refuted). C123_exchangeability: same statistic; same p-value without ties if the multipliers are reordered with the data. C123_radial_symmetry: same statistic. C123_goodness_of_fit: same statistic and p-value for the same samples, if the fit depends on the set of observations only (orderless_fit; C123_fit_case is one). C123_correlation: if scipy's coefficients depend on the set of pairs only. C123_expectation_maximisation: one step, at given quantiles.",
 "C124": "Both orders are given as valid parameters. The normal density is assumed to read its mean and covariance inside their shapes only (entries_only). C124_marginals needs positive variances for the quantiles, where the evaluation grid comes in another order and interp1d sorts it. C124_expectation_maximisation is stated for quantile function and likelihoods that do not see labels; C124_unlabelled_case and C124_quantiles_case show that those of the code are such. The start by k-means is not covered.",
 "C125": "Exact equality of results and errors, for the same simulated samples, multipliers and bits. Numbers are exact reals: scales that are not injective in floating point are outside. C125_fit is for fits with to_pobs (the default).",
 "C126": "Fits, densities and quantile tables are externals assumed to treat variables alike (fair_fit, fair_density, fair_table); examples meet these assumptions. p-values with ties are excluded: there the resampled margins of each variable use their own random draws. Correlation tables under reordered columns are C120.",
 "C127": "Holds for parameters given as a vector or found by an estimator (C127_fresh, C127_owned, through every history that does not name the copula or what it owns). Refuted for parameter objects, arrays and dictionaries: fitting with x0 = the parameters of another copula and method 'sgd' changes the other's weights (C127_fit_refuted), the caller's array is overwritten by to_vector (C127_array_refuted), and a store into an array given in a dictionary bypasses the checks (C127_dictionary_refuted). Contiguous float arrays; stores into the array param.covs are not modelled.",
 "C128": "The values of single finite entries are C70 and C81. C128_countermonotone_refuted: theta = -infinity is accepted in two dimensions, but tau and rho are nan instead of -1. Flattening of matrices is as in the code.",
 "C129": "Holds for 'average', for 'min' and 'max' (which change places) and for every method without ties. Refuted: 'ordinal' and 'dense' with ties (C129_ties_refuted); the statistic of radial symmetry (1/9 against 0 for three points). The Frank theorems leave out coordinates within 1/100 of the border and |theta| >= 36, where the code's cdf is wrong (C16-C18). The elliptical densities are in C83_gaussian_radial. C129_correlations assumes that scipy's coefficients are odd in either vector (shown for Pearson's formula in the case). Turning all variables of an elliptical copula: C83_gaussian_radial.",
 "C130": "For every run that returns, with any density, quantile function and log-likelihoods (finite numbers). The documentation's 'current and last GMM log likelihood' is read as the code records it: each at the quantiles from which the parameter was made, so two values compared belong to different data. C130_stops_case: one step on which only GMCM counts as converged.",
 "C131": "Needs positive variances (marginals, samples) or positive definite covariances (likelihood, steps) and the documented normal densities. C131_li_refuted: the criterion Li compares a number that moves with the scale with one that does not; for every mixture and data with a finite likelihood there are a scale on which it is met and one on which it is not. C131_run: whole fits under GMCM and GMM, provided the covariances on the way stay positive definite.",
 "C132": "scipy's normal and Cauchy densities, aux_f1, aux_f2 and the mode are arguments. C132_log_partial misses the case in which every log density before scaling is exactly 0; C132_log_refuted shows that the code then returns 0 for every scale, because stable.py reads a 0 as an underflow also for logarithms (C132_log_refuted_case: aux_f1 gives such a 0 at the centre of the symmetric law with Gamma(1 + 1/alpha) = pi).",
 "C133": "The Archimedean part holds for every real theta of Clayton and Frank and every point. Densities are not included. C133_complete_refuted: correlations with use='complete' leave out every row in which any variable is missing, so they depend on the other variables; C133_correlations covers 'everything' and 'pairwise.complete', for columns kept in their order.",
 "C134": "For given quantiles q. The quantiles that gmm_marginal_ppf computes are not covered: their grid has a number of points per component that depends on the weight, so divided mixtures use another grid. The step needs positive weights, a non-negative density, and the documented effect of the eigenvalue and cov_nearest routines.",
 "C135": "C135_fit_refuted: a fit of at least one step from a mixture with a component of weight 0, which GMCParam accepts, always raises FitException, since the responsibilities of that component sum to 0. The values are for given quantiles q, as in C134.",
 "C136": "Ordinal ranks depend on the order of equal observations and are left out. The empirical distribution function is taken with offset 0; the beta and checkerboard smoothings use the number of rows. The step is for given quantiles and needs a non-negative density and the documented effect of the eigenvalue and cov_nearest routines. The log-likelihood is supposed to be finite for the data taken once. The statistics are those of the compiled functions on given pseudo-observations; p-values are not compared.",
 "C137": "The empirical distribution function is emp_dist_func with offset 0 on data that are not ranked again.",
 "C138": "The empirical distribution function is taken with offset 0 on data that are not ranked again. The step is for given quantiles and for samples that leave no component empty; it needs a non-negative density and the documented effect of the eigenvalue and cov_nearest routines. The log-likelihoods of the samples are supposed to be finite.",
 "C139": "The empirical distribution function is emp_dist_func with offset 0 on data that are not ranked again."
}