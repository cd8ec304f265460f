{"id": "C01", "title": "Pseudo-observations lie strictly inside (0,1)", "statement": "For every non-empty finite data set and every ties method, each number returned by pseudo_obs is strictly greater than 0 and strictly less than 1.", "quantifier": "all data sets (any number of rows and columns, any values, any ties pattern), all five ties methods", "why_tests_cant": "Unbounded sample size and arbitrary tie patterns; a test only samples a few matrices.", "anchors": ["copulae/core/misc.py:pseudo_obs", "copulae/core/misc.py:rank_data"]}
{"id": "C02", "title": "Pseudo-observations preserve the order of the data", "statement": "Within a column, x_i < x_j implies pseudo_obs gives i a strictly smaller value than j; for average/min/max/dense equal data get equal values; for ordinal equal data are separated by position.", "quantifier": "all columns, all pairs of rows, all ties methods", "why_tests_cant": "Pairs of rows in arbitrary columns with arbitrary ties cannot be enumerated.", "anchors": ["copulae/core/misc.py:pseudo_obs", "copulae/core/misc.py:rank_data"]}
{"id": "C03", "title": "Pseudo-observations are invariant under increasing marginal transforms", "statement": "Applying any strictly increasing function to a column leaves the pseudo-observations of that column unchanged.", "quantifier": "all data columns, all strictly increasing functions, all ties methods", "why_tests_cant": "Quantifies over functions.", "anchors": ["copulae/core/misc.py:pseudo_obs", "copulae/core/misc.py:rank_data"]}
{"id": "C04", "title": "Reordering the observations reorders the pseudo-observations", "statement": "Permuting the rows of the data permutes the pseudo-observations in the same way (all ties methods except ordinal, for which it fails as soon as there are ties).", "quantifier": "all data columns and all permutations of the rows", "why_tests_cant": "All permutations of all samples.", "anchors": ["copulae/core/misc.py:pseudo_obs", "copulae/core/misc.py:rank_data"]}
{"id": "C05", "title": "Taking pseudo-observations twice changes nothing", "statement": "pseudo_obs(pseudo_obs(x)) == pseudo_obs(x) for every ties method. fit() relies on it: it transforms the data although the user may already have done so.", "quantifier": "all data columns, all ties methods", "why_tests_cant": "Every sample, every tie pattern.", "anchors": ["copulae/core/misc.py:pseudo_obs", "copulae/copula/base.py:BaseCopula.fit", "copulae/copula/estimator/corr_inversion.py"]}
{"id": "C06", "title": "Ranks are complete", "statement": "Without ties every ties method returns each of 1..n exactly once per column; with ties the average ranks still sum to n(n+1)/2 and ordinal ranks are still a permutation of 1..n.", "quantifier": "all columns of any length, all ties patterns", "why_tests_cant": "Unbounded length.", "anchors": ["copulae/core/misc.py:rank_data"]}
{"id": "C07", "title": "Triangular indices enumerate every pair once", "statement": "tri_indices(n, m, 'lower') lists each (row, col) with row >= col+m exactly once, 'upper' lists the transposed pairs in the same order, 'both' lists upper then lower, and for m=1 there are n(n-1)/2 of them.", "quantifier": "all n, all offsets m, all sides", "why_tests_cant": "All dimensions.", "anchors": ["copulae/core/misc.py:tri_indices"]}
{"id": "C08", "title": "Parameter vector to correlation matrix and back", "statement": "create_cov_matrix turns a vector of length d(d-1)/2 into a d x d symmetric matrix with unit diagonal whose lower-triangular entries, read in tri_indices order, are exactly the vector; vectors whose length is not of that form never silently produce such a matrix.", "quantifier": "all parameter vectors of all lengths", "why_tests_cant": "All dimensions and all vectors; dimension recovery goes through an integer square root.", "anchors": ["copulae/core/misc.py:create_cov_matrix", "copulae/core/misc.py:tri_indices", "copulae/elliptical/gaussian.py:GaussianCopula.params"]}
{"id": "C09", "title": "Covariance and correlation conversions are inverse", "statement": "cov2corr(corr2cov(corr, std)) gives back corr (and std) for every correlation matrix and positive std; cov2corr always yields unit diagonal and keeps symmetry.", "quantifier": "all dimensions, all matrices with positive diagonal, all positive standard deviations", "why_tests_cant": "Real-valued matrices of any size.", "anchors": ["copulae/core/linalg.py:corr2cov", "copulae/core/linalg.py:cov2corr"]}
{"id": "C10", "title": "Definiteness and symmetry tests mean what they say", "statement": "is_psd(A, strict=True) accepts only positive-definite matrices, is_psd(A, strict=False) accepts only matrices with eigenvalues >= -tol, is_symmetric is a symmetric relation in its argument's transpose, and near_psd returns a symmetric psd argument unchanged and rejects a non symmetric one.", "quantifier": "all matrices and tolerances", "why_tests_cant": "All matrices; boundary (singular) matrices are what a sample misses.", "anchors": ["copulae/core/linalg.py:is_psd", "copulae/core/linalg.py:is_symmetric", "copulae/core/linalg.py:near_psd"]}
{"id": "C11", "title": "Setting one correlation entry", "statement": "copula[i,j]=v makes copula[i,j]==copula[j,i]==v and leaves every other pair and the diagonal untouched whenever the result is positive semi-definite; diagonal entries, out-of-range indices and out-of-range values raise and leave the copula untouched.", "quantifier": "all dimensions, index pairs, values and prior states", "why_tests_cant": "Every prior state and every index pair.", "anchors": ["copulae/elliptical/abstract.py:AbstractEllipticalCopula.__setitem__", "copulae/elliptical/abstract.py:AbstractEllipticalCopula.__getitem__", "copulae/elliptical/abstract.py:_get_rho_index"]}
{"id": "C12", "title": "Elliptical rank-correlation maps are mutually inverse", "statement": "For elliptical copulas itau(tau) and tau(itau) are identities on their domains, likewise rho and irho for the Gaussian copula; images stay inside [-1,1].", "quantifier": "all correlations in [-1,1] and all rank correlations in [-1,1]", "why_tests_cant": "Continuum of inputs.", "anchors": ["copulae/elliptical/abstract.py:AbstractEllipticalCopula.tau", "copulae/elliptical/abstract.py:AbstractEllipticalCopula.itau", "copulae/elliptical/abstract.py:AbstractEllipticalCopula.rho", "copulae/elliptical/gaussian.py:GaussianCopula.irho"]}
{"id": "C13", "title": "Elliptical drho and dtau are the derivatives of rho and tau", "statement": "drho(x) and dtau(x) equal the derivatives of Spearman's rho and Kendall's tau with respect to the correlation parameter at every interior point.", "quantifier": "all correlations strictly between -1 and 1", "why_tests_cant": "Derivative at every point of a continuum.", "anchors": ["copulae/elliptical/abstract.py:AbstractEllipticalCopula.drho", "copulae/elliptical/abstract.py:AbstractEllipticalCopula.dtau"]}
{"id": "C14", "title": "The elliptical copula always holds a symmetric unit-diagonal correlation matrix", "statement": "After any history of constructions, parameter assignments and item assignments (including failing ones) sigma is symmetric with ones on the diagonal.", "quantifier": "all histories of public mutating calls", "why_tests_cant": "Histories are unbounded.", "anchors": ["copulae/elliptical/abstract.py", "copulae/elliptical/gaussian.py", "copulae/elliptical/student.py"]}
{"id": "C15", "title": "Student copula parameters round-trip and are validated", "statement": "Assigning to params a vector (df, rho...) and reading it back gives the same values; wrong lengths and non-positive df raise and leave the old parameters in place; no assignment can leave df <= 0.", "quantifier": "all vectors, all StudentParams values, all prior states", "why_tests_cant": "All assignments.", "anchors": ["copulae/elliptical/student.py:StudentCopula.params"]}
{"id": "C16", "title": "Archimedean generator and inverse generator cancel", "statement": "psi(ipsi(u)) == u for every u in (0,1] and ipsi(psi(s)) == s for every s in the range of ipsi, for every admissible theta of the Clayton, Gumbel and Frank copulas.", "quantifier": "all theta in the parameter space, all u in (0,1], all s >= 0", "why_tests_cant": "Continuum of parameters and points; regime switches near 0 are exactly what grids miss.", "anchors": ["copulae/archimedean/clayton.py:ClaytonCopula.psi", "copulae/archimedean/clayton.py:ClaytonCopula.ipsi", "copulae/archimedean/gumbel.py:GumbelCopula.psi", "copulae/archimedean/gumbel.py:GumbelCopula.ipsi", "copulae/archimedean/frank.py:FrankCopula.psi", "copulae/archimedean/frank.py:FrankCopula.ipsi"]}
{"id": "C17", "title": "Archimedean cdf has uniform margins and is grounded", "statement": "cdf(1,..,1,u,1,..,1) == u for every position and u, and cdf is 0 as soon as one coordinate is 0.", "quantifier": "all dimensions, all positions, all u, all theta", "why_tests_cant": "All dimensions and continuum of points.", "anchors": ["copulae/archimedean/abstract.py:AbstractArchimedeanCopula.cdf", "copulae/archimedean/clayton.py", "copulae/archimedean/gumbel.py", "copulae/archimedean/frank.py"]}
{"id": "C18", "title": "Archimedean cdf is a probability, monotone and within the Frechet bounds", "statement": "0 <= cdf(u) <= min(u); cdf is non-decreasing in every coordinate; in dimension 2 it is at least max(u+v-1, 0).", "quantifier": "all dimensions, points, theta", "why_tests_cant": "Continuum and all dimensions.", "anchors": ["copulae/archimedean/abstract.py:AbstractArchimedeanCopula.cdf", "copulae/archimedean/clayton.py", "copulae/archimedean/gumbel.py", "copulae/archimedean/frank.py"]}
{"id": "C19", "title": "Archimedean cdf is exchangeable", "statement": "cdf is unchanged under any permutation of the coordinates.", "quantifier": "all dimensions, all permutations, all points", "why_tests_cant": "Factorially many permutations.", "anchors": ["copulae/archimedean/abstract.py:AbstractArchimedeanCopula.cdf"]}
{"id": "C20", "title": "Archimedean cdf gives every rectangle and box non-negative mass", "statement": "For a1<=b1, a2<=b2: C(b1,b2)-C(a1,b2)-C(b1,a2)+C(a1,a2) >= 0; in every dimension the alternating sum over the corners of a box is >= 0.", "quantifier": "all rectangles in the unit square, all theta", "why_tests_cant": "Continuum of rectangles.", "anchors": ["copulae/archimedean/clayton.py", "copulae/archimedean/gumbel.py", "copulae/archimedean/frank.py", "copulae/archimedean/abstract.py"]}
{"id": "C21", "title": "dipsi gives the derivatives of the inverse generator", "statement": "dipsi(u, 1) and dipsi(u, 2) are the first and second derivative of ipsi at every interior u; log=True returns the logarithm of their absolute value; other degrees are rejected.", "quantifier": "all theta, all u in (0,1), both degrees", "why_tests_cant": "Continuum.", "anchors": ["copulae/archimedean/clayton.py:ClaytonCopula.dipsi", "copulae/archimedean/frank.py:FrankCopula.dipsi", "copulae/archimedean/gumbel.py:GumbelCopula.dipsi"]}
{"id": "C22", "title": "Kendall's tau and its inverse cancel for Archimedean copulas", "statement": "itau(tau(theta)) == theta and tau(itau(t)) == t on the admissible ranges for Clayton and Gumbel.", "quantifier": "all theta / all tau", "why_tests_cant": "Continuum.", "anchors": ["copulae/archimedean/clayton.py:ClaytonCopula.tau", "copulae/archimedean/clayton.py:ClaytonCopula.itau", "copulae/archimedean/gumbel.py:GumbelCopula.tau", "copulae/archimedean/gumbel.py:GumbelCopula.itau"]}
{"id": "C23", "title": "dtau is the derivative of tau for Archimedean copulas", "statement": "dtau(theta) equals the derivative of Kendall's tau with respect to theta for Clayton, Gumbel and Frank.", "quantifier": "all theta in the interior of the parameter space", "why_tests_cant": "Continuum.", "anchors": ["copulae/archimedean/clayton.py:ClaytonCopula.dtau", "copulae/archimedean/gumbel.py:GumbelCopula.dtau", "copulae/archimedean/frank.py:FrankCopula.dtau"]}
{"id": "C24", "title": "Tail dependence coefficients are the limits of the cdf", "statement": "lambda_ reports lim C(u,u)/u as u->0 (lower) and lim (1-2u+C(u,u))/(1-u) as u->1 (upper); both lie in [0,1].", "quantifier": "all theta", "why_tests_cant": "A limit at every parameter value.", "anchors": ["copulae/archimedean/clayton.py:ClaytonCopula.lambda_", "copulae/archimedean/gumbel.py:GumbelCopula.lambda_", "copulae/archimedean/frank.py:FrankCopula.lambda_"]}
{"id": "C25", "title": "pdf is the density of cdf", "statement": "The bivariate pdf equals the mixed second derivative of the cdf at every interior point; log=True returns its logarithm.", "quantifier": "all theta, all interior points", "why_tests_cant": "Derivative at every point.", "anchors": ["copulae/archimedean/clayton.py:ClaytonCopula.pdf", "copulae/archimedean/frank.py:FrankCopula.pdf", "copulae/archimedean/gumbel.py:GumbelCopula.pdf"]}
{"id": "C26", "title": "Archimedean parameters always stay in the parameter space", "statement": "However the object is built or re-parameterised, theta is nan or admissible for the family and dimension; a rejected assignment leaves theta unchanged.", "quantifier": "all dimensions, all values, all histories of constructions and assignments", "why_tests_cant": "Histories.", "anchors": ["copulae/archimedean/clayton.py:ClaytonCopula.__init__", "copulae/archimedean/clayton.py:ClaytonCopula.params", "copulae/archimedean/frank.py:FrankCopula.params", "copulae/archimedean/gumbel.py:GumbelCopula.params"]}
{"id": "C27", "title": "Bivariate Clayton and Frank sampling inverts the conditional distribution", "statement": "Given uniforms (u, t) the second coordinate v produced by random satisfies dC/du(u, v) == t (1 - t for Frank with theta > 0, equally uniform), so that samples follow the copula.", "quantifier": "all theta, all uniform draws in (0,1)^2", "why_tests_cant": "Every draw.", "anchors": ["copulae/archimedean/clayton.py:ClaytonCopula.random", "copulae/archimedean/frank.py:FrankCopula.random"]}
{"id": "C28", "title": "All Gumbel coefficient algorithms agree", "statement": "gumbel_coef returns the same numbers for methods sort, horner and direct, and they are the coefficients of the d-th derivative of the Gumbel generator.", "quantifier": "all degrees d >= 1, all alpha in (0,1]", "why_tests_cant": "All degrees.", "anchors": ["copulae/archimedean/gumbel.py:gumbel_coef"]}
{"id": "C29", "title": "All Gumbel polynomial algorithms agree", "statement": "gumbel_poly returns the same value for every supported method, in plain and log form, and the value is positive.", "quantifier": "all d, alpha, log x", "why_tests_cant": "All degrees and points.", "anchors": ["copulae/archimedean/gumbel.py:gumbel_poly", "copulae/archimedean/gumbel.py:_get_poly_method"]}
{"id": "C30", "title": "Gumbel Pickands function", "statement": "A(w) lies between max(w,1-w) and 1, is convex and symmetric with A(0)=A(1)=1, and C(u,v) == exp(log(uv) A(log v/log(uv))). A accepts a number or a vector, and dAdu returns the derivatives of A.", "quantifier": "all theta >= 1, all w in [0,1], all (u,v)", "why_tests_cant": "Continuum.", "anchors": ["copulae/archimedean/gumbel.py:GumbelCopula.A", "copulae/archimedean/gumbel.py:GumbelCopula.dAdu"]}
{"id": "C31", "title": "Stirling numbers are exact", "statement": "stirling_first(n,k) and stirling_second(n,k) satisfy the Stirling recurrences (so equal the coefficients of the falling factorial and the number of set partitions), the _all versions list exactly the scalar versions, and out-of-range arguments raise.", "quantifier": "all n, k", "why_tests_cant": "All integers.", "anchors": ["copulae/special/special_func.py:stirling_first", "copulae/special/special_func.py:stirling_second", "copulae/special/special_func.py:stirling_first_all", "copulae/special/special_func.py:stirling_second_all"]}
{"id": "C32", "title": "Eulerian numbers are exact", "statement": "eulerian(n,k) satisfies the Eulerian recurrence and symmetry, the row sums to n!, and eulerian_all(n) lists eulerian(n,0..n-1).", "quantifier": "all n, k", "why_tests_cant": "All integers.", "anchors": ["copulae/special/special_func.py:eulerian", "copulae/special/special_func.py:eulerian_all"]}
{"id": "C33", "title": "polyn_eval evaluates the polynomial", "statement": "polyn_eval(coef, x) == sum coef_i x^i for every coefficient list, including empty and singleton.", "quantifier": "all coefficient lists and points", "why_tests_cant": "Unbounded degree.", "anchors": ["copulae/special/special_func.py:polyn_eval"]}
{"id": "C34", "title": "Stable logarithm helpers are exact", "statement": "log1mexp(x) = log(1-exp(-x)) for x>0, log1pexp(x)=log(1+exp(x)), log_sum(x)=log(sum exp x_i) in every branch.", "quantifier": "all arguments in the domains", "why_tests_cant": "Continuum and branch boundaries.", "anchors": ["copulae/special/special_func.py:log1mexp", "copulae/special/special_func.py:log1pexp", "copulae/special/special_func.py:log_sum"]}
{"id": "C35", "title": "Polylogarithm of non-positive integer order", "statement": "poly_log(z, -n) gives the same value with method neg-stirling and neg-eulerian, both with log on and off, and equals (z d/dz)^n z/(1-z).", "quantifier": "all n >= 0 and z in (0,1)", "why_tests_cant": "All orders.", "anchors": ["copulae/special/special_func.py:poly_log"]}
{"id": "C36", "title": "find_root returns a root from any sign-changing start or fails loudly", "statement": "find_root never calls the solver with a bracket whose end points have the same sign; interval expansion only grows the bracket; end points given in the wrong order are swapped.", "quantifier": "all functions, all start points", "why_tests_cant": "Quantifies over functions and unbounded loops.", "anchors": ["copulae/special/optimize.py:find_root"]}
{"id": "C37", "title": "Vectorised special functions do not depend on threading or call shape", "statement": "debye_1, debye_2, dilog, clausen with threaded=True and False return the same array for every element schedule, element-wise equal to the scalar call, and leave the caller's array unchanged.", "quantifier": "all arrays and all interleavings of the element computations", "why_tests_cant": "Schedules.", "anchors": ["copulae/special/_specfunc.pyx:map_dbl_p", "copulae/special/_specfunc.pyx:map_dbl_s", "copulae/special/debye.py", "copulae/special/clausen.py", "copulae/special/dilog.py"]}
{"id": "C38", "title": "Clausen function is odd and 2 pi periodic", "statement": "clausen(-x) == -clausen(x) and clausen(x + 2 pi) == clausen(x) for every x.", "quantifier": "all real x", "why_tests_cant": "Continuum.", "anchors": ["copulae/special/_specfunc.pyx:_clausen", "copulae/special/_specfunc.pyx:angle_restrict_pos_err"]}
{"id": "C39", "title": "Option dictionaries merge right-biased and recursively", "statement": "merge_dict(a,b): every leaf of b wins, leaves only in a survive, nested dictionaries merge recursively; merging is idempotent and associative on well-formed dictionaries.", "quantifier": "all nested dictionaries", "why_tests_cant": "Unbounded nesting.", "anchors": ["copulae/utility/dict.py:merge_dict", "copulae/utility/dict.py:merge_dicts"]}
{"id": "C40", "title": "User supplied optimiser options win over defaults", "statement": "The options finally handed to the optimiser contain every user supplied option with the user's value, defaults elsewhere, max_iter = min(250 n, 20000), and the user's dictionary is left untouched.", "quantifier": "all user option dictionaries, all copulas", "why_tests_cant": "All dictionaries.", "anchors": ["copulae/copula/estimator/estimator.py:form_options"]}
{"id": "C41", "title": "A failing fit leaves the copula as it was", "statement": "If fit raises or the optimiser does not converge, the parameters and the previously stored fit summary are unchanged.", "quantifier": "all copulas, data, optimiser behaviours, failure points", "why_tests_cant": "All failure points.", "anchors": ["copulae/copula/base.py:BaseCopula.fit", "copulae/copula/estimator/estimator.py", "copulae/copula/estimator/max_likelihood.py"]}
{"id": "C42", "title": "Maximum likelihood returns the best point it reports", "statement": "After a successful ml/mpl fit, params equals the reported estimate and the reported log-likelihood equals the copula's log_lik of the data at these parameters; points where the likelihood fails or is nan are never better than any other point.", "quantifier": "all data, copulas, optimiser traces, scale factors", "why_tests_cant": "All optimiser histories.", "anchors": ["copulae/copula/estimator/max_likelihood.py:MaxLikelihoodEstimator"]}
{"id": "C43", "title": "Inversion fits reproduce the empirical rank correlations", "statement": "After fit(method='itau') an elliptical copula has tau equal to the empirical Kendall tau of the data whenever the matrix is psd; an Archimedean copula's theta is the average of the per-pair inversions.", "quantifier": "all data sets", "why_tests_cant": "All data.", "anchors": ["copulae/copula/estimator/corr_inversion.py:CorrInversionEstimator"]}
{"id": "C44", "title": "Fit input validation", "statement": "fit rejects data that is not 2-dimensional, of the wrong dimension, outside [0,1] when no transform is asked, or with fewer rows than columns, before touching the copula; method names are case-insensitive and unknown names raise.", "quantifier": "all data and method strings", "why_tests_cant": "All inputs.", "anchors": ["copulae/copula/base.py:BaseCopula.fit", "copulae/copula/estimator/estimator.py:fit_copula"]}
{"id": "C45", "title": "Starting values terminate and are admissible", "statement": "The start value search terminates and yields a starting point within the copula's parameter bounds.", "quantifier": "all data-driven correlation estimates", "why_tests_cant": "Loop over reals.", "anchors": ["copulae/copula/estimator/estimator.py:initial_params"]}
{"id": "C46", "title": "Input shaping never mixes up coordinates", "statement": "For cdf/pdf/log_lik: a labelled Series/DataFrame with the fitted column names in any order is evaluated as if in fitted order; arrays of wrong width are rejected; one observation and a one-row matrix give the same number.", "quantifier": "all dimensions, labels, permutations, shapes", "why_tests_cant": "All label permutations.", "anchors": ["copulae/utility/annotations/reshape.py:shape_first_input_to_cop_dim", "copulae/utility/annotations/reshape.py:squeeze_output", "copulae/utility/annotations/reshape.py:cast_input"]}
{"id": "C47", "title": "Summary selection", "statement": "summary('copula') and summary('fit') are case-insensitive, 'fit' before any fit raises NotFittedError, any other category raises ValueError.", "quantifier": "all strings and fit states", "why_tests_cant": "All strings.", "anchors": ["copulae/utility/annotations/summary.py:select_summary"]}
{"id": "C48", "title": "Correlation matrices are symmetric with unit diagonal and entries in [-1,1]", "statement": "For every method and use-mode corr(data) is symmetric, has unit diagonal, and every entry lies in [-1,1] or is nan.", "quantifier": "all data sets with or without missing values", "why_tests_cant": "All data.", "anchors": ["copulae/stats/correlation.py:corr", "copulae/stats/correlation.py:pearson_rho", "copulae/stats/correlation.py:kendall_tau", "copulae/stats/correlation.py:spearman_rho"]}
{"id": "C49", "title": "Missing data handling in correlations", "statement": "use='complete' equals computing on the rows without missing values; use='pairwise.complete' computes each pair on the rows where both are present; use='everything' yields nan exactly for the columns containing non-finite values; with complete data all modes agree.", "quantifier": "all missing-data patterns", "why_tests_cant": "2^(n d) patterns.", "anchors": ["copulae/stats/correlation.py:corr", "copulae/stats/correlation.py:_form_use"]}
{"id": "C50", "title": "Logarithmic series sampling returns positive integers", "statement": "random_log_series_ln1p returns integers >= 1 for every alpha < 0 and all uniform draws.", "quantifier": "all alpha<0, all draws", "why_tests_cant": "Continuum of draws, rare branch.", "anchors": ["copulae/stats/log.py:random_log_series_ln1p"]}
{"id": "C51", "title": "Multivariate t density", "statement": "multivariate_t.pdf integrates the standard formula: logpdf equals log of pdf, dimension/shape/psd/df arguments are validated, large df switches to the normal.", "quantifier": "all dimensions, locations, shape matrices, df", "why_tests_cant": "Continuum.", "anchors": ["copulae/stats/_multivariate_t.py:multivariate_t"]}
{"id": "C52", "title": "Empirical copula is a distribution function", "statement": "For every smoothing, EmpiricalCopula.cdf lies in [0,1], is monotone in every coordinate, 0 when a coordinate is 0 (smoothing none: below the smallest rank) and 1 at (1,...,1) with zero offset.", "quantifier": "all samples, all points", "why_tests_cant": "All samples.", "anchors": ["copulae/empirical/_distribution.pyx", "copulae/empirical/distribution.py", "copulae/empirical/empirical.py:EmpiricalCopula.cdf"]}
{"id": "C53", "title": "Smoothed empirical copulas have uniform margins", "statement": "Without ties the checkerboard and beta smoothed copulas satisfy cdf(1,..,u,..,1) == u for every u, so they are genuine copulas.", "quantifier": "all samples without ties, all u", "why_tests_cant": "All samples and continuum.", "anchors": ["copulae/empirical/_distribution.pyx:_emp_copula_checkerboard", "copulae/empirical/_distribution.pyx:_emp_copula_beta"]}
{"id": "C54", "title": "Empirical sampling only returns observed rows", "statement": "EmpiricalCopula.random returns rows of the source data and to_marginals maps every u in [0,1] to an observed value of that column, monotonically.", "quantifier": "all samples and draws", "why_tests_cant": "All draws incl. end points.", "anchors": ["copulae/empirical/empirical.py:EmpiricalCopula.random", "copulae/empirical/empirical.py:EmpiricalCopula.to_marginals"]}
{"id": "C55", "title": "Independence copula", "statement": "cdf is the product of the coordinates (sum of logs with log=True), pdf is 1 (log 0) everywhere in the cube, fitting changes nothing.", "quantifier": "all dimensions and points", "why_tests_cant": "All points.", "anchors": ["copulae/indep/indep.py:IndepCopula"]}
{"id": "C56", "title": "Marginal copula follows Sklar's theorem", "statement": "MarginalCopula.cdf(x) = C(F1(x1),..,Fd(xd)) and pdf = c(F(x)) prod f_i(x_i) (log version: sum) for every point, whatever the numeric type of the input.", "quantifier": "all margins, copulas, points", "why_tests_cant": "All points.", "anchors": ["copulae/marginal/marginal.py:MarginalCopula"]}
{"id": "C57", "title": "Marginal specification resolution", "statement": "Marginal names resolve case-insensitively to the advertised family, unknown names raise, missing parameters take the documented default, the number of margins always equals the dimension.", "quantifier": "all names/lists/dictionaries", "why_tests_cant": "All inputs.", "anchors": ["copulae/marginal/univariate.py", "copulae/marginal/marginal.py"]}
{"id": "C58", "title": "Simulated p-values lie strictly inside (0,1)", "statement": "exch_test, rad_sym_test and gof_copula report (k+0.5)/(N+1) style p-values strictly between 0 and 1, decreasing in the observed statistic.", "quantifier": "all observed/simulated statistics, all N >= 1", "why_tests_cant": "All outcomes.", "anchors": ["copulae/gof/exchangeability.py", "copulae/gof/radial_symmetry.py", "copulae/gof/goodness_of_fit/goodness_of_fit.py"]}
{"id": "C59", "title": "Exchangeability statistic", "statement": "The exchangeability statistic is non-negative, unchanged when the two columns are swapped, and zero when the sample is its own mirror image.", "quantifier": "all bivariate samples", "why_tests_cant": "All samples.", "anchors": ["copulae/gof/_exchangeability.pyx"]}
{"id": "C60", "title": "Radial symmetry statistic", "statement": "The radial symmetry statistic is non-negative, unchanged when the sample u is replaced by 1-u, and zero for a radially symmetric sample.", "quantifier": "all samples in any dimension", "why_tests_cant": "All samples.", "anchors": ["copulae/gof/_radial_symmetry.pyx"]}
{"id": "C61", "title": "Resampling indices stay in range", "statement": "The bootstrap replication of the exchangeability test indexes ranks within 0..n-1 for every sample, ties pattern and random bits.", "quantifier": "all samples and random bit strings", "why_tests_cant": "Memory-safety for all inputs (bounds checks are off).", "anchors": ["copulae/gof/_exchangeability.pyx"]}
{"id": "C62", "title": "Mixture parameters stay valid", "statement": "GMCParam always has non-negative probabilities summing to 1 and arrays of consistent shape; invalid assignments raise and change nothing.", "quantifier": "all assignment histories", "why_tests_cant": "Histories.", "anchors": ["copulae/mixtures/gmc/parameter.py:GMCParam"]}
{"id": "C63", "title": "GMC parameter vectors round-trip", "statement": "from_vector(to_vector(p)) == p for every valid parameter with non-degenerate probabilities.", "quantifier": "all numbers of clusters and dimensions", "why_tests_cant": "All sizes.", "anchors": ["copulae/mixtures/gmc/parameter.py:GMCParam.to_vector", "copulae/mixtures/gmc/parameter.py:GMCParam.from_vector"]}
{"id": "C64", "title": "GMC density and cdf mix the components", "statement": "pdf = sum_k p_k phi_k, cdf likewise, log=True gives the log of that number.", "quantifier": "all parameters and points", "why_tests_cant": "All points.", "anchors": ["copulae/mixtures/gmc/gmc.py:GaussianMixtureCopula.pdf", "copulae/mixtures/gmc/gmc.py:GaussianMixtureCopula.cdf"]}
{"id": "C65", "title": "EM steps keep a valid mixture", "statement": "Each E step gives row-stochastic responsibilities, each M step gives probabilities summing to 1 and symmetric positive semi-definite covariances, so every iterate is valid; the best parameter seen is returned with its log-likelihood.", "quantifier": "all data, all parameters, any number of iterations", "why_tests_cant": "Unbounded iterations.", "anchors": ["copulae/mixtures/gmc/estimators/em.py", "copulae/mixtures/gmc/loglik.py"]}
{"id": "C66", "title": "GMC marginal cdf approximation", "statement": "The marginal mixture cdf lies in [0,1], is monotone and symmetric about the mean for a single component; its inverse is computed on a grid that covers all components.", "quantifier": "all mixtures and points", "why_tests_cant": "All points.", "anchors": ["copulae/mixtures/gmc/marginals.py"]}
{"id": "C67", "title": "Chebyshev evaluation sums the series", "statement": "cheb_eval(c, x, a, b) equals c_0/2 + sum_{i>=1} c_i T_i((2x-a-b)/(b-a)) for every coefficient array, with T_i(cos t) = cos(i t).", "quantifier": "all coefficient arrays of every length, all intervals and points", "why_tests_cant": "The recurrence is unrolled to an arbitrary order.", "anchors": ["copulae/special/_specfunc.pyx:cheb_eval"]}
{"id": "C68", "title": "Sibuya sums agree across methods", "statement": "dsum_sibuya gives the mass function of a sum of n Sibuya(alpha) variables (the n-fold convolution) for methods log, direct and diff, plain and logarithmic; it is non-negative and zero for x < n.", "quantifier": "all x, all vectors n, all alpha in (0,1]", "why_tests_cant": "All integers, a continuum of alpha.", "anchors": ["copulae/archimedean/auxiliary.py:dsum_sibuya"]}
{"id": "C69", "title": "Rows outside the unit cube have no density", "statement": "The pdf of an Archimedean copula answers nan for every row that has a coordinate outside [0, 1] or a nan coordinate, whatever the other rows are, and the answer has one entry per row.", "quantifier": "all parameters, all arrays of rows, all positions of invalid rows", "why_tests_cant": "The mask is applied in some branches only and depends on whether any other row is valid; a test fixes one array.", "anchors": ["copulae/archimedean/clayton.py:108-137", "copulae/archimedean/frank.py:128-151", "copulae/archimedean/gumbel.py:185-220", "copulae/archimedean/_shared.py:6-17"]}
{"id": "C70", "title": "Frank's tau and rho are proper functions of theta", "statement": "debye1/debye2 of frank.py extend the Debye functions to all non-zero numbers; tau and rho of the Frank copula are odd in theta, strictly increasing, inside (-1,1) and carry the sign of theta; drho is the derivative of rho.", "quantifier": "all real theta", "why_tests_cant": "Continuum; monotonicity and derivatives.", "anchors": ["copulae/archimedean/frank.py:66-68", "copulae/archimedean/frank.py:201-212", "copulae/archimedean/frank.py:220-294"]}
{"id": "C71", "title": "Gumbel frailties are positive stable variates", "statement": "skew_stable.rvs as called by GumbelCopula.random returns, for every theta > 1 and all draws, a positive number, namely Kanter's formula for the positive stable law with index 1/theta; the sampled coordinates lie in (0,1).", "quantifier": "all theta > 1, all uniform and exponential draws", "why_tests_cant": "Continuum of draws and parameters.", "anchors": ["copulae/stats/stable/stable.py:130-156", "copulae/stats/stable/stable.py:165-174", "copulae/archimedean/gumbel.py:228-242"]}
{"id": "C72", "title": "The stable log-density is the logarithm of the density", "statement": "skew_stable.logpdf(x) = log(skew_stable.pdf(x)) at every entry of every array; invalid parameters are refused; the mode used by the S2 parametrisation is odd in beta.", "quantifier": "all arrays, scales, auxiliary densities", "why_tests_cant": "Depends on which other entries of the array underflow.", "anchors": ["copulae/stats/stable/stable.py:44-106", "copulae/stats/stable/stable.py:158-192", "copulae/stats/stable/pdf.py:185-203"]}
{"id": "C73", "title": "Density of the empirical beta copula", "statement": "For smoothing 'beta' EmpiricalCopula.pdf is the mixed partial derivative of EmpiricalCopula.cdf at every interior point, pdf(log=True) is its logarithm (-inf where the density is 0), and the other smoothings raise.", "quantifier": "all samples, tie methods, points", "why_tests_cant": "Derivative identity on a continuum, for all samples.", "anchors": ["copulae/empirical/empirical.py:EmpiricalCopula.pdf"]}
{"id": "C74", "title": "Fitting a copula with margins", "statement": "MarginalCopula.fit refits every margin within its own family to its own column and the joint copula to the whole data; params reports the fitted values in order; a fit that raises leaves the copula as it was.", "quantifier": "all data, margins and joint copulas", "why_tests_cant": "All shapes and all failures of the inner fit.", "anchors": ["copulae/marginal/marginal.py:MarginalCopula.fit", "copulae/marginal/univariate.py:get_marginal_detail"]}
{"id": "C75", "title": "The goodness-of-fit bootstrap keeps the dependence of the fitted copula", "statement": "gof_copula's statistic is the sum of squared differences between the empirical and the fitted copula, so non-negative. When the data contain ties, the bootstrap imposes the tie pattern of each column on a sample of the fitted copula without changing the dependence between the columns.", "quantifier": "all data sets with or without ties, all samples of the fitted copula", "why_tests_cant": "The damage is only visible as a wrong p-value; no example shows that the dependence of every possible sample is discarded.", "anchors": ["copulae/gof/goodness_of_fit/goodness_of_fit.py", "copulae/gof/goodness_of_fit/utils.py"]}
{"id": "C76", "title": "The distribution function of a Gaussian mixture copula is a copula", "statement": "GaussianMixtureCopula.cdf is grounded (0 when a coordinate is 0), has uniform margins and is 1 at (1,...,1).", "quantifier": "all parameters, all points", "why_tests_cant": "A property of a function on the cube.", "anchors": ["copulae/mixtures/gmc/gmc.py:GaussianMixtureCopula.cdf"]}
{"id": "C77", "title": "The copula likelihood is a ratio of densities", "statement": "gmcm_log_likelihood is the logarithm of the product over the observations of the mixture density divided by the product of the marginal mixture densities; components without dependence and one cluster give 0.", "quantifier": "all parameters, numbers of clusters, dimensions and samples of any size", "why_tests_cant": "All sizes; logarithms of sums and products.", "anchors": ["copulae/mixtures/gmc/loglik.py"]}
{"id": "C78", "title": "The mixture copula object stays consistent", "statement": "After a successful fit the parameters have the object's sizes and come from the method asked for; parameters of other sizes are refused; a fit that fails leaves the parameters as they were.", "quantifier": "all starting values, methods and outcomes of the inner fits", "why_tests_cant": "All failures of the inner fits.", "anchors": ["copulae/mixtures/gmc/gmc.py:GaussianMixtureCopula.fit", "copulae/mixtures/gmc/gmc.py:GaussianMixtureCopula.params"]}
{"id": "C79", "title": "The k-means start is made of group statistics", "statement": "k_means turns any assignment of the observations to clusters into valid parameters: the shares, means and covariance matrices of the groups.", "quantifier": "all data, dimensions, numbers of clusters and assignments", "why_tests_cant": "All assignments, also those with empty or single groups.", "anchors": ["copulae/mixtures/gmc/estimators/k_means.py"]}
{"id": "C80", "title": "The real dilogarithm is accurate everywhere", "statement": "dilog(x) never returns nan, and apart from the rounding of each operation it differs from the dilogarithm -Re int_0^x log(1-s)/s ds by less than 1e-15 at every real x; near 0 the relative difference is at most the machine epsilon.", "quantifier": "all real arguments", "why_tests_cant": "A bound over the whole line across seven branches and two loops with data-dependent stopping; the reference value is an integral.", "anchors": ["copulae/special/_specfunc.pyx:_dilog", "copulae/special/_specfunc.pyx:dilog_xge0", "copulae/special/_specfunc.pyx:dilog_series_1", "copulae/special/_specfunc.pyx:dilog_series_2"]}
{"id": "C81", "title": "The Debye functions are accurate everywhere", "statement": "debye_1 and debye_2 return nan exactly for negative arguments; at every positive argument, apart from the rounding of each operation, they differ from D_n(x) = n/x^n int_0^x t^n/(e^t-1) dt by less than 3e-16, and at 0 they return the limit 1. Frank's tau and rho computed from them are within 1e-15/|theta| and 4e-15/|theta| of their formulas.", "quantifier": "all real arguments, all theta with |theta| > 1e-8", "why_tests_cant": "A bound over the whole half line across six branches, a loop with data-dependent length and two coefficient tables; the reference value is an integral.", "anchors": ["copulae/special/_specfunc.pyx:_debye_1", "copulae/special/_specfunc.pyx:_debye_2", "copulae/archimedean/frank.py:debye1", "copulae/archimedean/frank.py:debye2"]}
{"id": "C82", "title": "The Clausen function is accurate on one period", "statement": "For every x with 0 < x < 2 pi, clausen(x) is not nan and, apart from the rounding of each operation, differs from Cl_2(x) = -int_0^x log(2 sin(t/2)) dt by at most 4e-19 times the distance of x to the nearer end of the period; for negative x it is the negative of the value at -x.", "quantifier": "all x in one period, positive or negative", "why_tests_cant": "A bound over an interval across the table, the cut for tiny arguments and the reflection; the reference value is an improper integral.", "anchors": ["copulae/special/_specfunc.pyx:_clausen", "copulae/special/_specfunc.pyx:clausen_constants"]}
{"id": "C83", "title": "The elliptical densities are the densities of their copulas", "statement": "In every dimension pdf of the Gaussian and of the Student copula is the joint density of the quantiles over the product of the marginal densities, hence the mixed derivative of the copula; log gives its logarithm. For a pair the copula lies between the Frechet bounds, is exchangeable and radially symmetric, and the density is positive and integrates to 1 along every line u = const. The Student copula has a distribution function.", "quantifier": "all dimensions, correlation matrices with positive determinant, degrees of freedom and points inside the cube", "why_tests_cant": "Derivatives and improper integrals over the whole cube, for every correlation and every number of degrees of freedom.", "anchors": ["copulae/elliptical/gaussian.py:GaussianCopula.pdf", "copulae/elliptical/gaussian.py:GaussianCopula.cdf", "copulae/elliptical/student.py:StudentCopula.pdf", "copulae/elliptical/student.py:StudentCopula.cdf"]}
{"id": "C84", "title": "The elliptical tail coefficients are the limits of the copulas", "statement": "Every entry of lambda_ of the Gaussian and of the Student copula is the limit of C(u,u)/u at 0 and of (1-2u+C(u,u))/(1-u) at 1 for the copula C of that pair.", "quantifier": "all dimensions, pairs, correlations and degrees of freedom", "why_tests_cant": "A limit of a quotient of a double integral, for every correlation.", "anchors": ["copulae/elliptical/gaussian.py:GaussianCopula.lambda_", "copulae/elliptical/student.py:StudentCopula.lambda_"]}
{"id": "C85", "title": "tau of the Archimedean copulas is Kendall's tau of their cdf", "statement": "tau of the Clayton, Gumbel and Frank copula is Kendall's tau of its bivariate distribution function, 1 minus 4 times the integral of dC/du dC/dv over the unit square; itau gives the parameter whose copula has the given tau.", "quantifier": "all parameters: Clayton theta > -1 other than 0, Gumbel theta >= 1, Frank |theta| > 1e-8", "why_tests_cant": "A double integral over the unit square, for every parameter.", "anchors": ["copulae/archimedean/clayton.py:ClaytonCopula.tau", "copulae/archimedean/gumbel.py:GumbelCopula.tau", "copulae/archimedean/frank.py:FrankCopula.tau", "copulae/archimedean/clayton.py:ClaytonCopula.itau", "copulae/archimedean/gumbel.py:GumbelCopula.itau"]}
{"id": "C86", "title": "rho and tau of the Gaussian copula are Spearman's rho and Kendall's tau of its cdf", "statement": "For a pair with correlation r, rho = 6 asin(r/2)/pi is Spearman's rho of the Gaussian copula's distribution function, 12 times its integral over the unit square minus 3, and tau = 2 asin(r)/pi is its Kendall's tau, 1 minus 4 times the integral of dC/du dC/dv, and also 4 C(1/2,1/2) - 1; irho and itau give the correlation whose copula has the given coefficient.", "quantifier": "all correlations in (-1, 1)", "why_tests_cant": "A double integral over the unit square of a function that is itself a double integral, for every correlation.", "anchors": ["copulae/elliptical/abstract.py:AbstractEllipticalCopula.rho", "copulae/elliptical/abstract.py:AbstractEllipticalCopula.tau", "copulae/elliptical/abstract.py:AbstractEllipticalCopula.itau", "copulae/elliptical/gaussian.py:GaussianCopula.irho", "copulae/elliptical/gaussian.py:GaussianCopula.cdf"]}
{"id": "C87", "title": "rho of the Student copula is Spearman's rho of the copula", "statement": "The attribute rho of the Student copula, inherited from the elliptical base class, is Spearman's rho of the copula whose density pdf computes; every copula has exactly one Spearman's rho, between -1 and 1.", "quantifier": "all correlations in (-1, 1) and degrees of freedom", "why_tests_cant": "A comparison of a closed formula with a double integral of a double integral; no finite set of evaluations gives the integral exactly.", "anchors": ["copulae/elliptical/abstract.py:AbstractEllipticalCopula.rho", "copulae/elliptical/student.py:StudentCopula.pdf"]}
{"id": "C88", "title": "rho of the Frank copula is Spearman's rho of the copula", "statement": "rho of the Frank copula, 1 + 12/theta (D2(theta) - D1(theta)), is Spearman's rho of the copula, 12 times the integral of C over the unit square minus 3. The values of tau and rho that the code returns, with its tables, series and the tangent near 0, are within 1e-7 and 4e-7 of Kendall's tau and Spearman's rho, and within 1e-15/|theta| and 4e-15/|theta|.", "quantifier": "all theta other than 0", "why_tests_cant": "A double integral over the unit square, for every parameter, against a formula with two special functions.", "anchors": ["copulae/archimedean/frank.py:FrankCopula.rho", "copulae/archimedean/frank.py:FrankCopula._rho", "copulae/archimedean/frank.py:FrankCopula.tau"]}
{"id": "C89", "title": "itau of the Frank copula returns the one parameter with the given Kendall's tau", "statement": "For 1e-16 <= |tau| <= 1 - 1e-15 itau's first bracket contains a sign change away from 0, so the root finder returns a parameter; the Frank copula with that parameter has Kendall's tau equal to tau, and no other Frank copula has. tau = 0 gives 0; an array with an entry |tau| >= 1 raises and gives no parameter.", "quantifier": "all tau, all arrays of tau, every solver that finds a root in a sign-changing bracket of a continuous function", "why_tests_cant": "Uniqueness needs monotonicity of tau on the whole line; the solver is arbitrary.", "anchors": ["copulae/archimedean/frank.py:FrankCopula.itau", "copulae/archimedean/frank.py:FrankCopula._tau", "copulae/special/optimize.py:find_root"]}
{"id": "C90", "title": "The stable density is Nolan's integral", "statement": "For alpha other than 1, aux_f1 with exact quadrature and root finding returns Nolan's integral for the density of the stable law, up to the part it cuts off (at most 15e-15 before the factor alpha/(pi |alpha-1| |x-zeta|)), and its logarithm with log; its exponent is Nolan's, monotone in the angle, and is 1 at the one peak of the integrand; skew_stable.pdf divides by gamma.", "quantifier": "all alpha in (0,2) other than 1, beta in [-1,1], x", "why_tests_cant": "An improper integral split at roots found numerically, for a continuum of parameters.", "anchors": ["copulae/stats/stable/pdf.py:aux_f1", "copulae/stats/stable/stable.py:skew_stable.pdf", "copulae/stats/stable/common.py:xexp"]}
{"id": "C91", "title": "The stable density is mirrored when beta changes sign", "statement": "pdf(x, alpha, -beta, gamma, delta) = pdf(2 delta - x, alpha, beta, gamma, delta) in the parametrisations S0 and S1, value and log, scalars and arrays; aux_f1(-x, alpha, -beta) = aux_f1(x, alpha, beta) whatever the quadrature and root finder do.", "quantifier": "all parameters (for alpha = 1: beta = 0), all points", "why_tests_cant": "An equality of two computations for every integrator and every parameter.", "anchors": ["copulae/stats/stable/pdf.py:aux_f1", "copulae/stats/stable/pdf.py:pareto", "copulae/stats/stable/stable.py:skew_stable.pdf"]}
{"id": "C92", "title": "The stable density is not 0 where the law has mass", "statement": "aux_f1 returns 0 only where the density is negligible; in particular a totally skewed law with alpha < 1 has a positive density on its half line, e.g. the Levy density at alpha = 1/2.", "quantifier": "all alpha < 1, beta = 1, x > zeta", "why_tests_cant": "The failing test compares the sum of two angles with 0; a test needs a reference density for the skewed case.", "anchors": ["copulae/stats/stable/pdf.py:aux_f1", "copulae/stats/stable/stable.py:skew_stable.pdf"]}
{"id": "C93", "title": "The stable density at alpha = 1 with beta > 0 is Nolan's integral", "statement": "For 0 < beta <= 1, aux_f2 with exact quadrature and a root finder that stays in its bracket returns Nolan's integral for alpha = 1, less at most pi/(4 beta) 1.1e-10 (the part it cuts off), and its logarithm with log; the exponent increases with the angle; the density exists, is unique and positive.", "quantifier": "all x and all beta in (0,1]", "why_tests_cant": "An improper integral split at a root found numerically, for a continuum of parameters.", "anchors": ["copulae/stats/stable/pdf.py:aux_f2", "copulae/stats/stable/common.py:xexp"]}
{"id": "C94", "title": "The stable density at alpha = 1 covers negative beta", "statement": "For beta < 0 the law is the mirror image of the law with -beta, and aux_f2 and skew_stable.pdf return its density.", "quantifier": "all beta in [-1,0) and all x", "why_tests_cant": "The cut-off uses np.size(beta) where the sign of beta is meant; whether the root search fails depends on 1000 bracket enlargements for a continuum of x.", "anchors": ["copulae/stats/stable/pdf.py:aux_f2", "copulae/stats/stable/stable.py:skew_stable.pdf", "copulae/special/optimize.py:find_root"]}
{"id": "C95", "title": "Fitting a mixture copula by a minimiser does not lower the likelihood", "statement": "The objective of method 'sgd' is minus the copula log-likelihood of the mixture a vector stands for, and at the start it is that of the start itself; what comes back is a valid mixture of the same sizes with weights summing to 1, the reported value is minus its log-likelihood, and it is at least as likely as the start, also seen through GaussianMixtureCopula.fit.", "quantifier": "all data, all valid starts with two or more components, all keyword arguments, every minimiser that evaluates its start and does not go up", "why_tests_cant": "The minimiser and the component densities are arbitrary; the statement needs the round trip through the parameter vector for every mixture.", "anchors": ["copulae/mixtures/gmc/estimators/sgd.py:gradient_descent", "copulae/mixtures/gmc/estimators/sgd.py:create_objective_function", "copulae/mixtures/gmc/gmc.py:GaussianMixtureCopula.fit"]}
{"id": "C96", "title": "max_iter limits the iterations of method 'sgd'", "statement": "The limit max_iter given to fit reaches the minimiser as option maxiter, whatever the method of minimisation and the other options, and a mixture of one component can be fitted.", "quantifier": "all methods, all optim_options, all limits", "why_tests_cant": "Over all keyword dictionaries and methods; tests use the default method.", "anchors": ["copulae/mixtures/gmc/estimators/sgd.py:get_default_option", "copulae/mixtures/gmc/estimators/sgd.py:gradient_descent", "copulae/mixtures/gmc/gmc.py:GaussianMixtureCopula.fit"]}
{"id": "C97", "title": "dilog_complex computes the complex dilogarithm", "statement": "For z = r exp(i theta) with |Im z| >= 10 machine epsilons, dilog_complex returns numbers within 2e-12 of the real and imaginary part of Li2(z) = - int_0^1 Log(1-tz)/t dt; on the real axis the real part is within 2e-13 and the imaginary part is 0 left of 1 and the limit from below, - pi ln x, right of 1. The dilogarithm exists, is unique off the cut and satisfies the conjugation, reflection and inversion formulas the branches use.", "quantifier": "all r > 0 and theta in [-pi, pi]; all complex x + i y; inside the unit circle all angles", "why_tests_cant": "Four series and three functional equations over the whole plane, against an integral; tests sample points.", "anchors": ["copulae/special/_specfunc.pyx:_dilog_complex", "copulae/special/_specfunc.pyx:dilogc_unit_disk", "copulae/special/_specfunc.pyx:dilogc_fundamental", "copulae/special/_specfunc.pyx:dilogc_series_1", "copulae/special/_specfunc.pyx:dilogc_series_2", "copulae/special/_specfunc.pyx:dilogc_series_3", "copulae/special/dilog.py:dilog_complex"]}
{"id": "C98", "title": "dilog_complex depends on the point only and is right next to the cut", "statement": "Two angles of the same point give the same value, and next to the cut [1, oo) the imaginary part has the sign of Im z.", "quantifier": "all points above the cut with 0 < Im z < 10 machine epsilons; angles beyond pi", "why_tests_cant": "The strip is thinner than any grid of test points; the error is as large as pi ln x.", "anchors": ["copulae/special/_specfunc.pyx:_dilog_complex", "copulae/special/dilog.py:dilog_complex"]}
{"id": "C99", "title": "dilog_complex on arrays works entry by entry and leaves its arguments alone", "statement": "For arrays of two or more entries the result is the function applied to each pair, in whatever order the threads run; the caller's arrays keep their values, also when the same array is passed for radius and angle.", "quantifier": "all lengths, all memory layouts of the two arrays, all orders of the parallel loop", "why_tests_cant": "Over all orders of a parallel loop and all ways two arrays can share memory.", "anchors": ["copulae/special/_specfunc.pyx:dilog_complex", "copulae/special/_specfunc.pyx:mapc_dbl_p", "copulae/special/_specfunc.pyx:mapc_dbl_s"]}
{"id": "C100", "title": "Sampling a Clayton copula in three or more dimensions", "statement": "Given the gamma variate v, the row is inside the unit cube and is below a bound u with the probability the product of exp(-v phi(u_i)) over the coordinates; the mean of this over the gamma distribution with shape 1/theta is the cdf of the copula at u.", "quantifier": "all theta >= 1e-7, all dimensions, all bounds u in the open cube, all draws", "why_tests_cant": "A statement about the distribution of the samples; tests compare a finite sample with a tolerance.", "anchors": ["copulae/archimedean/clayton.py:ClaytonCopula.random", "copulae/archimedean/clayton.py:ClaytonCopula.psi"]}
{"id": "C101", "title": "Sampling a Frank copula in three or more dimensions", "statement": "The entries of a row are numbers in the unit interval with uniform margins, for every theta >= 1e-7.", "quantifier": "all theta, all dimensions, all draws", "why_tests_cant": "A statement about the distribution of the samples and the set of draws that give nan; tests compare shapes.", "anchors": ["copulae/archimedean/frank.py:FrankCopula.random", "copulae/archimedean/frank.py:FrankCopula.psi", "copulae/stats/log.py:random_log_series_ln1p"]}
{"id": "C102", "title": "Fixed degrees of freedom stay fixed", "statement": "StudentCopula.fit with fix_df=True leaves the degrees of freedom at the value the copula had before, accepts any dictionary of options and leaves it as it is.", "quantifier": "all data, all starting points, all minimisers that report success only where the constraints they were given are answered with 0, all methods", "why_tests_cant": "Over every minimiser: the constraint reads an attribute that the objective overwrites, so its value depends on the order of the evaluations.", "anchors": ["copulae/elliptical/student.py:StudentCopula.fit", "copulae/copula/estimator/max_likelihood.py:estimate_max_likelihood_params", "copulae/copula/estimator/estimator.py:initial_params"]}
{"id": "C103", "title": "Assigning to one copula changes only that copula", "statement": "Setting a correlation of an elliptical copula changes what the copula shows as the assignment on values says, and changes no other copula, no array the caller passed as params and no recorded fit.", "quantifier": "all memory layouts of the parameter arrays, all indices and values, all sequences of later assignments", "why_tests_cant": "Over all ways objects can share arrays and all later assignments; a test looks at the object it assigned to.", "anchors": ["copulae/elliptical/abstract.py:AbstractEllipticalCopula.__setitem__", "copulae/elliptical/gaussian.py:GaussianCopula.params", "copulae/elliptical/student.py:StudentCopula.params", "copulae/copula/estimator/corr_inversion.py:estimate_corr_inverse_params", "copulae/copula/estimator/max_likelihood.py:estimate_max_likelihood_params"]}
{"id": "C104", "title": "Gumbel samples in any dimension follow the Gumbel copula", "statement": "A row of GumbelCopula.random is below (u_1, ..., u_d) with probability C(u_1, ..., u_d): the frailty of skew_stable.rvs has the positive stable law, whose Laplace transform at t is exp(-t^(1/theta)).", "quantifier": "all theta > 1, all dimensions, all points inside the cube", "why_tests_cant": "A statement about the distribution of the samples: an integral over all draws of the frailty and of the uniforms.", "anchors": ["copulae/archimedean/gumbel.py:GumbelCopula.random", "copulae/stats/stable/stable.py:skew_stable.rvs", "copulae/archimedean/gumbel.py:GumbelCopula.cdf"]}
{"id": "C105", "title": "Multivariate t samples follow the multivariate t density", "statement": "A row of multivariate_t.rvs is mean + Z / sqrt(W / df) with Z normal and W an independent chi-square variate, and the density of such a row is multivariate_t.pdf; StudentCopula.random applies the t distribution function to every entry, so that a row is below u exactly where the t variates are below the quantiles of u. This holds with and without a seed.", "quantifier": "all dimensions, scale matrices, means, degrees of freedom up to 10000, points, generators and seeds", "why_tests_cant": "A statement about the distribution of the samples: an integral over the chi-square variate; and about the independence of two streams of random numbers for all seeds.", "anchors": ["copulae/stats/_multivariate_t.py:multivariate_t.rvs", "copulae/stats/_multivariate_t.py:multivariate_t.pdf", "copulae/elliptical/student.py:StudentCopula.random"]}
{"id": "C106", "title": "A sample of n observations has n rows", "statement": "random(n) returns a table of n rows and dim columns, under the column names of the data if the copula was fitted to a DataFrame, for every copula class and every n; a copula with margins returns the quantiles of the entries.", "quantifier": "all classes, parameters, dimensions, n, generators, seeds, margins", "why_tests_cant": "Over all sizes including a single observation, all branches of the samplers and all combinations of decorators.", "anchors": ["copulae/copula/base.py:BaseCopula.random", "copulae/utility/annotations/reshape.py:cast_output", "copulae/elliptical/gaussian.py:GaussianCopula.random", "copulae/elliptical/student.py:StudentCopula.random", "copulae/marginal/marginal.py:MarginalCopula.random"]}
{"id": "C107", "title": "A seed makes a sample reproducible and concerns only that sample", "statement": "random(n, seed) does not depend on what was drawn before, and does not change what other code draws later from the global generator.", "quantifier": "all classes, n, seeds, states of the generator, later samples", "why_tests_cant": "Over all states of a generator and all later draws.", "anchors": ["copulae/stats/uniform.py:random_uniform", "copulae/elliptical/gaussian.py:GaussianCopula.random", "copulae/stats/_multivariate_t.py:multivariate_t.rvs", "copulae/mixtures/gmc/gmc.py:GaussianMixtureCopula.random", "copulae/empirical/empirical.py:EmpiricalCopula.random"]}
{"id": "C108", "title": "Options of a fit with margins reach the joint copula under their names", "statement": "Every option given to MarginalCopula.fit, or its default, is the value of the option of the same name in the fit of the joint copula, and the default options are valid for every joint copula.", "quantifier": "all options, all joint copulas", "why_tests_cant": "Over all combinations of options and all classes that can be the joint copula.", "anchors": ["copulae/marginal/marginal.py:MarginalCopula.fit", "copulae/mixtures/gmc/gmc.py:GaussianMixtureCopula.fit", "copulae/mixtures/gmc/estimators/em.py:LogLik"]}
{"id": "C109", "title": "Evaluating a method leaves its argument alone", "statement": "psi and itau return the values at the numbers passed, leave every array of the caller as it was, and return the same when called again.", "quantifier": "all families, parameters, arguments (numbers, lists, arrays), all contents of the memory, all values numpy leaves in unset masks", "why_tests_cant": "Over all memory layouts and all repeated calls; a test compares the returned values only.", "anchors": ["copulae/archimedean/frank.py:FrankCopula.psi", "copulae/archimedean/clayton.py:ClaytonCopula.psi", "copulae/archimedean/gumbel.py:GumbelCopula.psi", "copulae/archimedean/gumbel.py:GumbelCopula.itau", "copulae/utility/annotations/reshape.py:cast_input"]}
{"id": "C110", "title": "The form in which numbers are passed does not matter", "statement": "A method decorated with cast_input gives the same values for a list and an array, for a number and an array with one element, for integers and the same floats, and for an argument passed by keyword and by position.", "quantifier": "all decorated methods, all numbers, all forms", "why_tests_cant": "Over all combinations of methods and forms of arguments; tests use one form per method.", "anchors": ["copulae/utility/annotations/reshape.py:cast_input", "copulae/utility/annotations/reshape.py:squeeze_output", "copulae/archimedean/frank.py:FrankCopula.ipsi", "copulae/archimedean/frank.py:FrankCopula.itau", "copulae/archimedean/gumbel.py:GumbelCopula.dtau", "copulae/archimedean/gumbel.py:GumbelCopula.itau"]}
{"id": "C111", "title": "A summary can be displayed and shows every parameter", "statement": "The summary of a copula shows every parameter, as text and as html; the summary of a fit shows every setting and result; both can be made after every fit.", "quantifier": "all classes, parameters, types of stored numbers, fit methods, dictionaries of settings and results", "why_tests_cant": "Over all types a parameter can be stored with and all ways a summary can come about; tests look at one fit per class.", "anchors": ["copulae/copula/summary.py:Summary", "copulae/copula/estimator/summary.py:FitSummary", "copulae/mixtures/gmc/summary.py:Summary", "copulae/elliptical/student.py:StudentCopula.summary"]}
{"id": "C112", "title": "The text of a mixture parameter can be read back", "statement": "The weights, means and covariances printed by repr of a GMCParam are list literals of Python that denote exactly the parameter.", "quantifier": "all numbers of clusters and dimensions, all parameters", "why_tests_cant": "A statement about a printer and a grammar for all sizes.", "anchors": ["copulae/mixtures/gmc/parameter.py:GMCParam.__repr__", "copulae/mixtures/gmc/parameter.py:GMCParam.__str__"]}
{"id": "C113", "title": "Fits by Spearman's rho work for the copulas that offer them", "statement": "fit with method 'irho' sets the parameters from the inverse of Spearman's rho, for every copula whose fit documents the method; rho and drho are numbers.", "quantifier": "all copula classes, data, spellings of the method, root finders", "why_tests_cant": "Over all data and all later behaviour of the root finder: no test data makes the difference.", "anchors": ["copulae/archimedean/abstract.py:AbstractArchimedeanCopula.irho", "copulae/archimedean/clayton.py:ClaytonCopula._rho", "copulae/archimedean/gumbel.py:GumbelCopula._rho", "copulae/archimedean/frank.py:FrankCopula.irho", "copulae/elliptical/student.py:StudentCopula.irho", "copulae/copula/estimator/corr_inversion.py:estimate_corr_inverse_params"]}
{"id": "C114", "title": "The column names of a copula are those of its last fit", "statement": "After any sequence of fits, samples carry the column names of the data of the last successful fit, and none if that was an array.", "quantifier": "all sequences of fits, data sets, outcomes", "why_tests_cant": "Over all histories of an object; tests fit an object once.", "anchors": ["copulae/copula/base.py:BaseCopula.fit", "copulae/utility/annotations/reshape.py:cast_output", "copulae/utility/annotations/reshape.py:shape_first_input_to_cop_dim"]}
{"id": "C115", "title": "fit_ties decides how the goodness-of-fit test ranks the data it fits", "statement": "gof_copula fits the copula to the pseudo-observations of the data by fit_ties, for the data and for every replication, and passes the options of the caller to fit.", "quantifier": "all data, tie methods, fits, samples, numbers of replications, options", "why_tests_cant": "Over all data with ties and all fitting functions: equality of two runs for every input.", "anchors": ["copulae/gof/goodness_of_fit/goodness_of_fit.py:gof_copula", "copulae/gof/goodness_of_fit/utils.py:GofData", "copulae/copula/base.py:BaseCopula.fit"]}
{"id": "C116", "title": "Replications in several processes are as good as replications in one", "statement": "With multiprocess=True the replications of the goodness-of-fit test are separate draws from the random number generator, run at the same time, and a later test draws other numbers.", "quantifier": "all assignments of tasks to workers, numbers of replications, states of the generator", "why_tests_cant": "Over all schedules of the workers; a run of a test sees one.", "anchors": ["copulae/gof/goodness_of_fit/goodness_of_fit.py:GofParametricBootstrap.fit", "copulae/gof/goodness_of_fit/goodness_of_fit.py:GofParametricBootstrap._process_result"]}
{"id": "C117", "title": "The symmetry tests draw from the generator of numpy without disturbing it", "statement": "exch_test and rad_sym_test are reproducible when numpy's generator is seeded before, draw new numbers otherwise, and never reset the generator for later code.", "quantifier": "all data with and without ties, numbers of replications, states of both generators", "why_tests_cant": "Over all states of two random number generators.", "anchors": ["copulae/gof/exchangeability.py:exch_test", "copulae/gof/_exchangeability.pyx:exch_test_cn", "copulae/gof/_exchangeability.pyx:exch_replication", "copulae/gof/radial_symmetry.py:rad_sym_test", "copulae/gof/_radial_symmetry.pyx:rad_sym_replicate"]}
{"id": "C118", "title": "Stable variates follow the stable density", "statement": "The variates of skew_stable.rvs have the distribution whose density skew_stable.pdf computes with the same parameters; changing the sign of beta mirrors both.", "quantifier": "all alpha in (0, 2], beta in [-1, 1], uniform and exponential draws", "why_tests_cant": "Equality of two distributions over a continuum of draws; a sampled histogram only approximates it.", "anchors": ["copulae/stats/stable/stable.py:skew_stable.rvs", "copulae/stats/stable/stable.py:skew_stable.pdf"]}
{"id": "C119", "title": "Accuracy of the marginal distribution functions of mixtures", "statement": "The marginal distribution function of a Gaussian mixture copula is within 1.25e-5 of the distribution function of the mixture of normal laws, so samples have uniform margins up to 1.25e-5; small probabilities keep their relative size.", "quantifier": "all mixtures with positive variances, coordinates, points", "why_tests_cant": "An error bound over the whole line; a test compares finitely many points with another approximation.", "anchors": ["copulae/mixtures/gmc/marginals.py:gmm_marginal_cdf", "copulae/mixtures/gmc/random.py:random_gmcm"]}
{"id": "C120", "title": "Labels of correlation tables and pseudo-observations", "statement": "Correlations and pseudo-observations of pandas data have the same numbers as those of the bare arrays and carry the labels of the data: the columns of a data frame, or the names of two series, kept apart when they agree. Reordering the columns of a data frame reorders the table and changes no number at a pair of labels.", "quantifier": "all data, labels, orders of columns, methods and treatments of missing values", "why_tests_cant": "Relates calls on differently labelled and ordered data; a test checks one table.", "anchors": ["copulae/stats/correlation.py:format_output", "copulae/stats/correlation.py:corr", "copulae/core/misc.py:pseudo_obs"]}
{"id": "C121", "title": "Reported margins describe the copula", "statement": "A copula with margins made from the parameters another one reports has margins of the same families with the same parameters, reports the same and computes the same values; the reported dictionaries are not changed.", "quantifier": "all joint copulas, margins and parameters, however they were given", "why_tests_cant": "A round trip over all families and all ways of passing parameters.", "anchors": ["copulae/marginal/marginal.py:MarginalCopula.params", "copulae/marginal/univariate.py:get_marginal_detail", "copulae/marginal/univariate.py:create_univariate"]}
{"id": "C122", "title": "Each EM step raises the likelihood of the quantiles", "statement": "One step of the expectation maximisation, E-step and M-step at fixed quantiles, never lowers the log-likelihood of the normal mixture at these quantiles: the code's gmm_log_likelihood of the new parameter is at least that of the old one. Along a run this holds at every step, at the quantiles of the step.", "quantifier": "all dimensions, numbers of components and points, all mixtures with weights whose sum is at most 1 and positive definite covariances, all runs", "why_tests_cant": "An inequality over all data and parameters that rests on the interplay of both halves of the step; a test sees single trajectories.", "anchors": ["copulae/mixtures/gmc/estimators/em.py:expectation_maximization", "copulae/mixtures/gmc/estimators/em.py:e_step", "copulae/mixtures/gmc/estimators/em.py:m_step", "copulae/mixtures/gmc/loglik.py:gmm_log_likelihood"]}
{"id": "C123", "title": "Statistics do not depend on the order of the observations", "statement": "Reordering the rows of the data changes neither the statistics of the exchangeability, radial symmetry and goodness of fit tests, nor the empirical copula, nor correlation tables, nor the likelihoods and EM steps of mixtures; p-values stay the same once the simulations are the same (goodness of fit), or use the same multipliers at the same observations (exchangeability without ties).", "quantifier": "all data, sizes, permutations of the rows, treatments of ties other than 'ordinal', and numbers of replications", "why_tests_cant": "A metamorphic relation over all permutations; a test compares two orders.", "anchors": ["copulae/gof/exchangeability.py:exch_test", "copulae/gof/radial_symmetry.py:rad_sym_test", "copulae/gof/goodness_of_fit/goodness_of_fit.py:gof_copula", "copulae/empirical/distribution.py:emp_dist_func", "copulae/stats/correlation.py:corr", "copulae/mixtures/gmc/estimators/em.py:m_step"]}
{"id": "C124", "title": "Labels of mixture components carry no meaning", "statement": "Putting the components of a Gaussian mixture into another order changes no density, distribution function, log-likelihood, marginal distribution function or marginal quantile. A run of the expectation maximisation started from the reordered components fails with the same error, or returns the same components in that order with the same convergence flag and log-likelihood.", "quantifier": "all dimensions, numbers of components, orders, data, stopping criteria and numbers of iterations", "why_tests_cant": "A symmetry over all permutations and whole runs; tests fix one order.", "anchors": ["copulae/mixtures/gmc/gmc.py:GaussianMixtureCopula.pdf", "copulae/mixtures/gmc/loglik.py:gmcm_log_likelihood", "copulae/mixtures/gmc/marginals.py:gmm_marginal_ppf", "copulae/mixtures/gmc/marginals.py:gmm_marginal_cdf", "copulae/mixtures/gmc/estimators/em.py:expectation_maximization"]}
{"id": "C125", "title": "Tests, empirical copulas and fits see ranks only", "statement": "Measuring each variable on another strictly increasing scale changes nothing in the tests of exchangeability, radial symmetry and goodness of fit (statistic, p-value and errors), in the empirical copula and its density, and in fits that rank their data.", "quantifier": "all data, also with ties, all increasing scales, all treatments of ties (also 'ordinal'), smoothings and options", "why_tests_cant": "Invariance under an infinite family of transformations; a test applies one.", "anchors": ["copulae/gof/exchangeability.py:exch_test", "copulae/gof/radial_symmetry.py:rad_sym_test", "copulae/gof/goodness_of_fit/goodness_of_fit.py:gof_copula", "copulae/empirical/empirical.py:EmpiricalCopula.cdf", "copulae/empirical/empirical.py:EmpiricalCopula.pdf", "copulae/copula/base.py:BaseCopula.fit"]}
{"id": "C126", "title": "The order of the variables carries no meaning", "statement": "Putting the columns of the data into another order changes no value of the empirical copula and its density at points in that order, no statistic of the tests of radial symmetry and goodness of fit (and no p-value, without ties, for samples in that order), and no density, distribution function or likelihood of a Gaussian mixture whose coordinates are in that order; its margins are the same in the new order. A run of the expectation maximisation on reordered variables fails with the same error, or returns the same mixture with reordered coordinates, the same convergence flag and log-likelihood.", "quantifier": "all dimensions, orders, data, smoothings, treatments of ties, mixtures, stopping criteria and numbers of iterations", "why_tests_cant": "A symmetry over all permutations and whole runs; tests fix one order.", "anchors": ["copulae/empirical/empirical.py:EmpiricalCopula.cdf", "copulae/empirical/empirical.py:EmpiricalCopula.pdf", "copulae/gof/radial_symmetry.py:rad_sym_test", "copulae/gof/goodness_of_fit/goodness_of_fit.py:gof_copula", "copulae/mixtures/gmc/gmc.py:GaussianMixtureCopula.pdf", "copulae/mixtures/gmc/loglik.py:gmcm_log_likelihood", "copulae/mixtures/gmc/marginals.py:gmm_marginal_ppf", "copulae/mixtures/gmc/estimators/em.py:expectation_maximization"]}
{"id": "C127", "title": "A mixture copula owns its parameters", "statement": "Whatever is done to other copulas, other parameter objects and the caller's arrays, a Gaussian mixture copula keeps its weights, means and covariances; setters, to_vector and assignments have on each object the effect they have on values.", "quantifier": "all memory layouts, all histories of assignments, element stores, conversions to vectors and fits", "why_tests_cant": "Aliasing over unbounded histories; tests use fresh objects each time.", "anchors": ["copulae/mixtures/gmc/gmc.py:GaussianMixtureCopula.params", "copulae/mixtures/gmc/parameter.py:GMCParam.prob", "copulae/mixtures/gmc/parameter.py:GMCParam.means", "copulae/mixtures/gmc/parameter.py:GMCParam.to_vector", "copulae/mixtures/gmc/parameter.py:GMCParam.from_dict", "copulae/mixtures/gmc/estimators/sgd.py:gradient_descent"]}
{"id": "C128", "title": "Debye functions on arrays and at infinity", "statement": "Frank's Debye functions give for each entry of an array the value of that entry alone, also next to nan and infinite entries; at the infinities they give the limits of the Debye functions. Kendall's tau and Spearman's rho of the Frank copula at theta = +infinity and -infinity are their limits 1 and -1.", "quantifier": "all arrays of numbers, infinities and nan; both infinities", "why_tests_cant": "Independence of entries over all arrays and limits of integrals.", "anchors": ["copulae/archimedean/frank.py:debye1", "copulae/archimedean/frank.py:debye2", "copulae/archimedean/frank.py:FrankCopula.tau", "copulae/archimedean/frank.py:FrankCopula._rho"]}
{"id": "C129", "title": "Turning variables round", "statement": "Measuring a variable from high to low turns its pseudo-observations u into 1 - u and leaves the other variables alone; the test of radial symmetry gives the same statistic; correlation tables change the sign of the pairs of which one variable is turned; for the Frank, Gaussian and Student copulas of two variables turning one variable changes the sign of the parameter.", "quantifier": "all data, all monotone scales, all tie methods, all Frank parameters and points", "why_tests_cant": "Symmetry over all data sets and all monotone scales.", "anchors": ["copulae/core/misc.py:pseudo_obs", "copulae/core/misc.py:rank_data", "copulae/gof/radial_symmetry.py:radial_symmetry_test", "copulae/archimedean/frank.py:FrankCopula.cdf", "copulae/stats/correlation.py:corr", "copulae/elliptical/gaussian.py:GaussianCopula.pdf", "copulae/elliptical/student.py:StudentCopula.pdf"]}
{"id": "C130", "title": "Expectation maximisation stops by the criterion asked for", "statement": "Under each of the criteria GMCM, GMM and Li a run makes at least one and at most max_iter steps; every step but the last had a gap of at least eps in the quantity the criterion compares, has_converged is true just when the last gap is below eps, and a run without convergence has made max_iter steps. The quantities are the copula's log-likelihoods (GMCM), the mixture's log-likelihoods at the quantiles each parameter was made from (GMM), and the mixture's new against the copula's old one (Li).", "quantifier": "all data, start parameters, limits, eps, densities, quantile functions and log-likelihoods", "why_tests_cant": "Runs of any length; a wrong entry of the record changes only the number of steps.", "anchors": ["copulae/mixtures/gmc/estimators/em.py:expectation_maximization", "copulae/mixtures/gmc/estimators/em.py:LogLik.has_converged", "copulae/mixtures/gmc/estimators/em.py:LogLik.set"]}
{"id": "C131", "title": "The scales of a mixture's coordinates carry no meaning", "statement": "A Gaussian mixture copula depends on its parameters only up to location and scale of each coordinate: measuring coordinate j as a_j x + b_j (a_j > 0) turns the marginal quantiles into a_j x + b_j, leaves marginal probabilities, samples, the copula's log-likelihood and the posterior probabilities of a step alone, gives the next parameter on the same scale, and does not influence when the fit stops.", "quantifier": "all mixtures, scales, data, resolutions and numbers of components and dimensions", "why_tests_cant": "An invariance over all parameters, scales and data.", "anchors": ["copulae/mixtures/gmc/marginals.py:gmm_marginal_cdf", "copulae/mixtures/gmc/marginals.py:gmm_marginal_ppf", "copulae/mixtures/gmc/loglik.py:gmcm_log_likelihood", "copulae/mixtures/gmc/loglik.py:gmm_log_likelihood_marginals", "copulae/mixtures/gmc/random.py:random_gmcm", "copulae/mixtures/gmc/estimators/em.py:m_step", "copulae/mixtures/gmc/estimators/em.py:LogLik.has_converged"]}
{"id": "C132", "title": "Stable laws form location-scale families", "statement": "If s > 0 and the scale gamma is positive, the stable law with scale s gamma and location s delta + t has at s x + t the density of the law with gamma and delta at x divided by s, and gives for the same draws the variate s z + t where the other gives z; likewise log densities differ by log s. In the parametrisation S1 with alpha = 1 the location is s delta + t - (2/pi) beta gamma s log s, as for Nolan.", "quantifier": "all alpha, beta, gamma > 0, delta, s > 0, t, parametrisations, points and draws", "why_tests_cant": "A relation between the answers at all parameters, scales and points; tests compare single values.", "anchors": ["copulae/stats/stable/stable.py:skew_stable.pdf", "copulae/stats/stable/stable.py:skew_stable.logpdf", "copulae/stats/stable/stable.py:skew_stable.rvs"]}
{"id": "C133", "title": "Some of the variables", "statement": "What is said about some of the variables does not depend on the others: with the other coordinates at 1 the cdf of an Archimedean, empirical or independence copula is the cdf of the copula of the remaining variables with the same parameter; pseudo-observations, correlations and (from three dimensions on, with the same frailty) samples of some columns are those columns of the whole.", "quantifier": "all dimensions, choices of variables, parameters, data, smoothings, treatments of ties, points and draws", "why_tests_cant": "A relation between copulas of different dimensions for all choices of variables; tests fix one dimension.", "anchors": ["copulae/archimedean/abstract.py:AbstractArchimedeanCopula.cdf", "copulae/empirical/empirical.py:EmpiricalCopula.cdf", "copulae/indep/indep.py:IndepCopula.cdf", "copulae/core/misc.py:pseudo_obs", "copulae/stats/correlation.py:corr", "copulae/archimedean/clayton.py:ClaytonCopula.random", "copulae/archimedean/gumbel.py:GumbelCopula.random", "copulae/archimedean/frank.py:FrankCopula.random"]}
{"id": "C134", "title": "Equal components of a mixture may be merged", "statement": "A mixture in which components are divided into parts with the same mean and covariance whose weights add up has the same density, log-likelihoods at given quantiles and marginal probabilities. Each part takes its share of the responsibilities, and a step of the expectation maximisation fails for both mixtures or gives mixtures related in the same way.", "quantifier": "all mixtures, divisions of components, data and numbers of components and dimensions", "why_tests_cant": "A relation between mixtures with different numbers of components; tests fix one number.", "anchors": ["copulae/mixtures/gmc/gmc.py:GaussianMixtureCopula.pdf", "copulae/mixtures/gmc/loglik.py:gmm_log_likelihood", "copulae/mixtures/gmc/loglik.py:gmcm_log_likelihood", "copulae/mixtures/gmc/marginals.py:gmm_marginal_cdf", "copulae/mixtures/gmc/estimators/em.py:e_step", "copulae/mixtures/gmc/estimators/em.py:m_step"]}
{"id": "C135", "title": "Components of weight 0", "statement": "A mixture with further components of weight 0 has the same density, log-likelihoods at given quantiles and marginal probabilities, and a fit by expectation maximisation started from it can go on as without them.", "quantifier": "all mixtures, numbers of empty components with any means and covariances, data, points, criteria and numbers of steps", "why_tests_cant": "A relation between mixtures with different numbers of components; tests start with positive weights.", "anchors": ["copulae/mixtures/gmc/gmc.py:GaussianMixtureCopula.pdf", "copulae/mixtures/gmc/loglik.py:gmcm_log_likelihood", "copulae/mixtures/gmc/marginals.py:gmm_marginal_cdf", "copulae/mixtures/gmc/estimators/em.py:expectation_maximization"]}
{"id": "C136", "title": "Repeated data", "statement": "If all observations occur t times in place of once, the dense ranks do not change and the average, least and greatest ranks r become t r - (t - 1)/2, t (r - 1) + 1 and t r; the empirical distribution function without smoothing does not change; a step of the expectation maximisation fails for both or gives the same mixture; the log-likelihood of a mixture and the statistics of the tests of exchangeability and radial symmetry for given pseudo-observations are multiplied by t.", "quantifier": "all data, numbers of copies, rows and columns, points, mixtures and treatments of ties except ordinal", "why_tests_cant": "A relation between runs on data of different sizes; tests fix one set of data.", "anchors": ["copulae/core/misc.py:rank_data", "copulae/empirical/distribution.py:emp_dist_func", "copulae/mixtures/gmc/estimators/em.py:e_step", "copulae/mixtures/gmc/estimators/em.py:m_step", "copulae/mixtures/gmc/loglik.py:gmm_log_likelihood", "copulae/gof/_exchangeability.pyx:exch_test_stat", "copulae/gof/_radial_symmetry.pyx:rad_sym_test_stat"]}
{"id": "C137", "title": "One more observation", "statement": "When one observation is added at the end of n others, each rank of the others stays or rises by at most 1, each of their pseudo-observations moves by at most 1/(n + 2), and the empirical distribution function without smoothing moves by at most 1/(n + 1) at each point.", "quantifier": "all data, numbers of observations and variables, added observations, treatments of ties and points", "why_tests_cant": "A bound on the effect of any added observation on data of any size; tests fix the data.", "anchors": ["copulae/core/misc.py:rank_data", "copulae/core/misc.py:pseudo_obs", "copulae/empirical/distribution.py:emp_dist_func"]}
{"id": "C138", "title": "Two samples taken together", "statement": "If two samples are put one below the other, the empirical distribution function without smoothing is the average of theirs with the numbers of rows as weights, the log-likelihood of a mixture is the sum of theirs, and a step of the expectation maximisation gives the averages of their weights and means with the sums of the responsibilities as weights, and covariances put together from theirs and the distances of the means.", "quantifier": "all samples with equally many columns, numbers of rows, points, mixtures and dimensions", "why_tests_cant": "A relation between runs on three sets of data of any size; tests fix one.", "anchors": ["copulae/empirical/distribution.py:emp_dist_func", "copulae/mixtures/gmc/loglik.py:gmm_log_likelihood", "copulae/mixtures/gmc/estimators/em.py:e_step", "copulae/mixtures/gmc/estimators/em.py:m_step"]}
{"id": "C139", "title": "One observation replaced", "statement": "When one of n observations is replaced by another, each rank of the others moves by at most 1, each of their pseudo-observations by at most 1/(n + 1), and the empirical distribution function without smoothing by at most 1/n at each point.", "quantifier": "all data, numbers of observations and variables, replaced and new observations, points and treatments of ties", "why_tests_cant": "A bound on the effect of any change of one observation in data of any size; tests fix the data.", "anchors": ["copulae/core/misc.py:rank_data", "copulae/core/misc.py:pseudo_obs", "copulae/empirical/distribution.py:emp_dist_func"]}
