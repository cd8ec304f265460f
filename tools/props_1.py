# Source of properties.jsonl (first batch).  Run tools/mkprops.py to regenerate.
P = []
def p(title, statement, quantifier, why, anchors):
    P.append(dict(title=title, statement=statement, quantifier=quantifier, why_tests_cant=why, anchors=anchors))

M="copulae/core/misc.py"; L="copulae/core/linalg.py"; EA="copulae/elliptical/abstract.py"
CL="copulae/archimedean/clayton.py"; FR="copulae/archimedean/frank.py"; GU="copulae/archimedean/gumbel.py"
SF="copulae/special/special_func.py"; SP="copulae/special/_specfunc.pyx"; EST="copulae/copula/estimator/"
CO="copulae/stats/correlation.py"; EM="copulae/empirical/"; GMC="copulae/mixtures/gmc/"; AN="copulae/utility/annotations/"

# ---- ranks and pseudo-observations
p("Pseudo-observations lie strictly inside (0,1)",
  "For every non-empty finite data set and every ties method, each number returned by pseudo_obs is strictly greater than 0 and strictly less than 1.",
  "all data sets (any number of rows and columns, any values, any ties pattern), all five ties methods",
  "Unbounded sample size and arbitrary tie patterns; a test only samples a few matrices.",
  [f"{M}:pseudo_obs",f"{M}:rank_data"])
p("Pseudo-observations preserve the order of the data",
  "Within a column, x_i < x_j implies pseudo_obs gives i a strictly smaller value than j; for average/min/max/dense equal data get equal values; for ordinal equal data are separated by position.",
  "all columns, all pairs of rows, all ties methods",
  "Pairs of rows in arbitrary columns with arbitrary ties cannot be enumerated.",
  [f"{M}:pseudo_obs",f"{M}:rank_data"])
p("Pseudo-observations are invariant under increasing marginal transforms",
  "Applying any strictly increasing function to a column leaves the pseudo-observations of that column unchanged.",
  "all data columns, all strictly increasing functions, all ties methods",
  "Quantifies over functions.",
  [f"{M}:pseudo_obs",f"{M}:rank_data"])
p("Reordering the observations reorders the pseudo-observations",
  "Permuting the rows of the data permutes the pseudo-observations in the same way (all ties methods except ordinal, for which it fails as soon as there are ties).",
  "all data columns and all permutations of the rows",
  "All permutations of all samples.",
  [f"{M}:pseudo_obs",f"{M}:rank_data"])
p("Taking pseudo-observations twice changes nothing",
  "pseudo_obs(pseudo_obs(x)) == pseudo_obs(x) for every ties method. fit() relies on it: it transforms the data although the user may already have done so.",
  "all data columns, all ties methods",
  "Every sample, every tie pattern.",
  [f"{M}:pseudo_obs","copulae/copula/base.py:BaseCopula.fit",EST+"corr_inversion.py"])
p("Ranks are complete",
  "Without ties every ties method returns each of 1..n exactly once per column; with ties the average ranks still sum to n(n+1)/2 and ordinal ranks are still a permutation of 1..n.",
  "all columns of any length, all ties patterns",
  "Unbounded length.",
  [f"{M}:rank_data"])
# ---- triangular indices, correlation matrices
p("Triangular indices enumerate every pair once",
  "tri_indices(n, m, 'lower') lists each (row, col) with row >= col+m exactly once, 'upper' lists the transposed pairs in the same order, 'both' lists upper then lower, and for m=1 there are n(n-1)/2 of them.",
  "all n, all offsets m, all sides",
  "All dimensions.",
  [f"{M}:tri_indices"])
p("Parameter vector to correlation matrix and back",
  "create_cov_matrix turns a vector of length d(d-1)/2 into a d x d symmetric matrix with unit diagonal whose lower-triangular entries, read in tri_indices order, are exactly the vector; vectors whose length is not of that form never silently produce such a matrix.",
  "all parameter vectors of all lengths",
  "All dimensions and all vectors; dimension recovery goes through an integer square root.",
  [f"{M}:create_cov_matrix",f"{M}:tri_indices","copulae/elliptical/gaussian.py:GaussianCopula.params"])
p("Covariance and correlation conversions are inverse",
  "cov2corr(corr2cov(corr, std)) gives back corr (and std) for every correlation matrix and positive std; cov2corr always yields unit diagonal and keeps symmetry.",
  "all dimensions, all matrices with positive diagonal, all positive standard deviations",
  "Real-valued matrices of any size.",
  [f"{L}:corr2cov",f"{L}:cov2corr"])
p("Definiteness and symmetry tests mean what they say",
  "is_psd(A, strict=True) accepts only positive-definite matrices, is_psd(A, strict=False) accepts only matrices with eigenvalues >= -tol, is_symmetric is a symmetric relation in its argument's transpose, and near_psd returns a symmetric psd argument unchanged and rejects a non symmetric one.",
  "all matrices and tolerances",
  "All matrices; boundary (singular) matrices are what a sample misses.",
  [f"{L}:is_psd",f"{L}:is_symmetric",f"{L}:near_psd"])
# ---- elliptical
p("Setting one correlation entry",
  "copula[i,j]=v makes copula[i,j]==copula[j,i]==v and leaves every other pair and the diagonal untouched whenever the result is positive semi-definite; diagonal entries, out-of-range indices and out-of-range values raise and leave the copula untouched.",
  "all dimensions, index pairs, values and prior states",
  "Every prior state and every index pair.",
  [f"{EA}:AbstractEllipticalCopula.__setitem__",f"{EA}:AbstractEllipticalCopula.__getitem__",f"{EA}:_get_rho_index"])
p("Elliptical rank-correlation maps are mutually inverse",
  "For elliptical copulas itau(tau) and tau(itau) are identities on their domains, likewise rho and irho for the Gaussian copula; images stay inside [-1,1].",
  "all correlations in [-1,1] and all rank correlations in [-1,1]",
  "Continuum of inputs.",
  [f"{EA}:AbstractEllipticalCopula.tau",f"{EA}:AbstractEllipticalCopula.itau",f"{EA}:AbstractEllipticalCopula.rho","copulae/elliptical/gaussian.py:GaussianCopula.irho"])
p("Elliptical drho and dtau are the derivatives of rho and tau",
  "drho(x) and dtau(x) equal the derivatives of Spearman's rho and Kendall's tau with respect to the correlation parameter at every interior point.",
  "all correlations strictly between -1 and 1",
  "Derivative at every point of a continuum.",
  [f"{EA}:AbstractEllipticalCopula.drho",f"{EA}:AbstractEllipticalCopula.dtau"])
p("The elliptical copula always holds a symmetric unit-diagonal correlation matrix",
  "After any history of constructions, parameter assignments and item assignments (including failing ones) sigma is symmetric with ones on the diagonal.",
  "all histories of public mutating calls",
  "Histories are unbounded.",
  [f"{EA}","copulae/elliptical/gaussian.py","copulae/elliptical/student.py"])
p("Student copula parameters round-trip and are validated",
  "Assigning to params a vector (df, rho...) and reading it back gives the same values; wrong lengths and non-positive df raise and leave the old parameters in place; no assignment can leave df <= 0.",
  "all vectors, all StudentParams values, all prior states",
  "All assignments.",
  ["copulae/elliptical/student.py:StudentCopula.params"])
# ---- archimedean
p("Archimedean generator and inverse generator cancel",
  "psi(ipsi(u)) == u for every u in (0,1] and ipsi(psi(s)) == s for every s in the range of ipsi, for every admissible theta of the Clayton, Gumbel and Frank copulas.",
  "all theta in the parameter space, all u in (0,1], all s >= 0",
  "Continuum of parameters and points; regime switches near 0 are exactly what grids miss.",
  [f"{CL}:ClaytonCopula.psi",f"{CL}:ClaytonCopula.ipsi",f"{GU}:GumbelCopula.psi",f"{GU}:GumbelCopula.ipsi",f"{FR}:FrankCopula.psi",f"{FR}:FrankCopula.ipsi"])
p("Archimedean cdf has uniform margins and is grounded",
  "cdf(1,..,1,u,1,..,1) == u for every position and u, and cdf is 0 as soon as one coordinate is 0.",
  "all dimensions, all positions, all u, all theta",
  "All dimensions and continuum of points.",
  ["copulae/archimedean/abstract.py:AbstractArchimedeanCopula.cdf",CL,GU,FR])
p("Archimedean cdf is a probability, monotone and within the Frechet bounds",
  "0 <= cdf(u) <= min(u); cdf is non-decreasing in every coordinate; in dimension 2 it is at least max(u+v-1, 0).",
  "all dimensions, points, theta",
  "Continuum and all dimensions.",
  ["copulae/archimedean/abstract.py:AbstractArchimedeanCopula.cdf",CL,GU,FR])
p("Archimedean cdf is exchangeable",
  "cdf is unchanged under any permutation of the coordinates.",
  "all dimensions, all permutations, all points",
  "Factorially many permutations.",
  ["copulae/archimedean/abstract.py:AbstractArchimedeanCopula.cdf"])
p("Archimedean cdf gives every rectangle and box non-negative mass",
  "For a1<=b1, a2<=b2: C(b1,b2)-C(a1,b2)-C(b1,a2)+C(a1,a2) >= 0; in every dimension the alternating sum over the corners of a box is >= 0.",
  "all rectangles in the unit square, all theta",
  "Continuum of rectangles.",
  [CL,GU,FR,"copulae/archimedean/abstract.py"])
p("dipsi gives the derivatives of the inverse generator",
  "dipsi(u, 1) and dipsi(u, 2) are the first and second derivative of ipsi at every interior u; log=True returns the logarithm of their absolute value; other degrees are rejected.",
  "all theta, all u in (0,1), both degrees",
  "Continuum.",
  [f"{CL}:ClaytonCopula.dipsi",f"{FR}:FrankCopula.dipsi",f"{GU}:GumbelCopula.dipsi"])
p("Kendall's tau and its inverse cancel for Archimedean copulas",
  "itau(tau(theta)) == theta and tau(itau(t)) == t on the admissible ranges for Clayton and Gumbel.",
  "all theta / all tau",
  "Continuum.",
  [f"{CL}:ClaytonCopula.tau",f"{CL}:ClaytonCopula.itau",f"{GU}:GumbelCopula.tau",f"{GU}:GumbelCopula.itau"])
p("dtau is the derivative of tau for Archimedean copulas",
  "dtau(theta) equals the derivative of Kendall's tau with respect to theta for Clayton, Gumbel and Frank.",
  "all theta in the interior of the parameter space",
  "Continuum.",
  [f"{CL}:ClaytonCopula.dtau",f"{GU}:GumbelCopula.dtau",f"{FR}:FrankCopula.dtau"])
p("Tail dependence coefficients are the limits of the cdf",
  "lambda_ reports lim C(u,u)/u as u->0 (lower) and lim (1-2u+C(u,u))/(1-u) as u->1 (upper); both lie in [0,1].",
  "all theta",
  "A limit at every parameter value.",
  [f"{CL}:ClaytonCopula.lambda_",f"{GU}:GumbelCopula.lambda_",f"{FR}:FrankCopula.lambda_"])
p("pdf is the density of cdf",
  "The bivariate pdf equals the mixed second derivative of the cdf at every interior point; log=True returns its logarithm.",
  "all theta, all interior points",
  "Derivative at every point.",
  [f"{CL}:ClaytonCopula.pdf",f"{FR}:FrankCopula.pdf",f"{GU}:GumbelCopula.pdf"])
p("Archimedean parameters always stay in the parameter space",
  "However the object is built or re-parameterised, theta is nan or admissible for the family and dimension; a rejected assignment leaves theta unchanged.",
  "all dimensions, all values, all histories of constructions and assignments",
  "Histories.",
  [f"{CL}:ClaytonCopula.__init__",f"{CL}:ClaytonCopula.params",f"{FR}:FrankCopula.params",f"{GU}:GumbelCopula.params"])
p("Bivariate Clayton and Frank sampling inverts the conditional distribution",
  "Given uniforms (u, t) the second coordinate v produced by random satisfies dC/du(u, v) == t (1 - t for Frank with theta > 0, equally uniform), so that samples follow the copula.",
  "all theta, all uniform draws in (0,1)^2",
  "Every draw.",
  [f"{CL}:ClaytonCopula.random",f"{FR}:FrankCopula.random"])
p("All Gumbel coefficient algorithms agree",
  "gumbel_coef returns the same numbers for methods sort, horner and direct, and they are the coefficients of the d-th derivative of the Gumbel generator.",
  "all degrees d >= 1, all alpha in (0,1]",
  "All degrees.",
  [f"{GU}:gumbel_coef"])
p("All Gumbel polynomial algorithms agree",
  "gumbel_poly returns the same value for every supported method, in plain and log form, and the value is positive.",
  "all d, alpha, log x",
  "All degrees and points.",
  [f"{GU}:gumbel_poly",f"{GU}:_get_poly_method"])
p("Gumbel Pickands function",
  "A(w) lies between max(w,1-w) and 1, is convex and symmetric with A(0)=A(1)=1, and C(u,v) == exp(log(uv) A(log v/log(uv))). A accepts a number or a vector, and dAdu returns the derivatives of A.",
  "all theta >= 1, all w in [0,1], all (u,v)",
  "Continuum.",
  [f"{GU}:GumbelCopula.A",f"{GU}:GumbelCopula.dAdu"])
# ---- special functions
p("Stirling numbers are exact",
  "stirling_first(n,k) and stirling_second(n,k) satisfy the Stirling recurrences (so equal the coefficients of the falling factorial and the number of set partitions), the _all versions list exactly the scalar versions, and out-of-range arguments raise.",
  "all n, k",
  "All integers.",
  [f"{SF}:stirling_first",f"{SF}:stirling_second",f"{SF}:stirling_first_all",f"{SF}:stirling_second_all"])
p("Eulerian numbers are exact",
  "eulerian(n,k) satisfies the Eulerian recurrence and symmetry, the row sums to n!, and eulerian_all(n) lists eulerian(n,0..n-1).",
  "all n, k",
  "All integers.",
  [f"{SF}:eulerian",f"{SF}:eulerian_all"])
p("polyn_eval evaluates the polynomial",
  "polyn_eval(coef, x) == sum coef_i x^i for every coefficient list, including empty and singleton.",
  "all coefficient lists and points",
  "Unbounded degree.",
  [f"{SF}:polyn_eval"])
p("Stable logarithm helpers are exact",
  "log1mexp(x) = log(1-exp(-x)) for x>0, log1pexp(x)=log(1+exp(x)), log_sum(x)=log(sum exp x_i) in every branch.",
  "all arguments in the domains",
  "Continuum and branch boundaries.",
  [f"{SF}:log1mexp",f"{SF}:log1pexp",f"{SF}:log_sum"])
p("Polylogarithm of non-positive integer order",
  "poly_log(z, -n) gives the same value with method neg-stirling and neg-eulerian, both with log on and off, and equals (z d/dz)^n z/(1-z).",
  "all n >= 0 and z in (0,1)",
  "All orders.",
  [f"{SF}:poly_log"])
p("find_root returns a root from any sign-changing start or fails loudly",
  "find_root never calls the solver with a bracket whose end points have the same sign; interval expansion only grows the bracket; end points given in the wrong order are swapped.",
  "all functions, all start points",
  "Quantifies over functions and unbounded loops.",
  ["copulae/special/optimize.py:find_root"])
p("Vectorised special functions do not depend on threading or call shape",
  "debye_1, debye_2, dilog, clausen with threaded=True and False return the same array for every element schedule, element-wise equal to the scalar call, and leave the caller's array unchanged.",
  "all arrays and all interleavings of the element computations",
  "Schedules.",
  [f"{SP}:map_dbl_p",f"{SP}:map_dbl_s","copulae/special/debye.py","copulae/special/clausen.py","copulae/special/dilog.py"])
p("Clausen function is odd and 2 pi periodic",
  "clausen(-x) == -clausen(x) and clausen(x + 2 pi) == clausen(x) for every x.",
  "all real x",
  "Continuum.",
  [f"{SP}:_clausen",f"{SP}:angle_restrict_pos_err"])
# ---- dictionaries and options
p("Option dictionaries merge right-biased and recursively",
  "merge_dict(a,b): every leaf of b wins, leaves only in a survive, nested dictionaries merge recursively; merging is idempotent and associative on well-formed dictionaries.",
  "all nested dictionaries",
  "Unbounded nesting.",
  ["copulae/utility/dict.py:merge_dict","copulae/utility/dict.py:merge_dicts"])
p("User supplied optimiser options win over defaults",
  "The options finally handed to the optimiser contain every user supplied option with the user's value, defaults elsewhere, max_iter = min(250 n, 20000), and the user's dictionary is left untouched.",
  "all user option dictionaries, all copulas",
  "All dictionaries.",
  [EST+"estimator.py:form_options"])
# ---- fitting
p("A failing fit leaves the copula as it was",
  "If fit raises or the optimiser does not converge, the parameters and the previously stored fit summary are unchanged.",
  "all copulas, data, optimiser behaviours, failure points",
  "All failure points.",
  ["copulae/copula/base.py:BaseCopula.fit",EST+"estimator.py",EST+"max_likelihood.py"])
p("Maximum likelihood returns the best point it reports",
  "After a successful ml/mpl fit, params equals the reported estimate and the reported log-likelihood equals the copula's log_lik of the data at these parameters; points where the likelihood fails or is nan are never better than any other point.",
  "all data, copulas, optimiser traces, scale factors",
  "All optimiser histories.",
  [EST+"max_likelihood.py:MaxLikelihoodEstimator"])
p("Inversion fits reproduce the empirical rank correlations",
  "After fit(method='itau') an elliptical copula has tau equal to the empirical Kendall tau of the data whenever the matrix is psd; an Archimedean copula's theta is the average of the per-pair inversions.",
  "all data sets",
  "All data.",
  [EST+"corr_inversion.py:CorrInversionEstimator"])
p("Fit input validation",
  "fit rejects data that is not 2-dimensional, of the wrong dimension, outside [0,1] when no transform is asked, or with fewer rows than columns, before touching the copula; method names are case-insensitive and unknown names raise.",
  "all data and method strings",
  "All inputs.",
  ["copulae/copula/base.py:BaseCopula.fit",EST+"estimator.py:fit_copula"])
p("Starting values terminate and are admissible",
  "The start value search terminates and yields a starting point within the copula's parameter bounds.",
  "all data-driven correlation estimates",
  "Loop over reals.",
  [EST+"estimator.py:initial_params"])
# ---- input decorators
p("Input shaping never mixes up coordinates",
  "For cdf/pdf/log_lik: a labelled Series/DataFrame with the fitted column names in any order is evaluated as if in fitted order; arrays of wrong width are rejected; one observation and a one-row matrix give the same number.",
  "all dimensions, labels, permutations, shapes",
  "All label permutations.",
  [AN+"reshape.py:shape_first_input_to_cop_dim",AN+"reshape.py:squeeze_output",AN+"reshape.py:cast_input"])
p("Summary selection",
  "summary('copula') and summary('fit') are case-insensitive, 'fit' before any fit raises NotFittedError, any other category raises ValueError.",
  "all strings and fit states",
  "All strings.",
  [AN+"summary.py:select_summary"])
# ---- correlation
p("Correlation matrices are symmetric with unit diagonal and entries in [-1,1]",
  "For every method and use-mode corr(data) is symmetric, has unit diagonal, and every entry lies in [-1,1] or is nan.",
  "all data sets with or without missing values",
  "All data.",
  [f"{CO}:corr",f"{CO}:pearson_rho",f"{CO}:kendall_tau",f"{CO}:spearman_rho"])
p("Missing data handling in correlations",
  "use='complete' equals computing on the rows without missing values; use='pairwise.complete' computes each pair on the rows where both are present; use='everything' yields nan exactly for the columns containing non-finite values; with complete data all modes agree.",
  "all missing-data patterns",
  "2^(n d) patterns.",
  [f"{CO}:corr",f"{CO}:_form_use"])
# ---- stats
p("Logarithmic series sampling returns positive integers",
  "random_log_series_ln1p returns integers >= 1 for every alpha < 0 and all uniform draws.",
  "all alpha<0, all draws",
  "Continuum of draws, rare branch.",
  ["copulae/stats/log.py:random_log_series_ln1p"])
p("Multivariate t density",
  "multivariate_t.pdf integrates the standard formula: logpdf equals log of pdf, dimension/shape/psd/df arguments are validated, large df switches to the normal.",
  "all dimensions, locations, shape matrices, df",
  "Continuum.",
  ["copulae/stats/_multivariate_t.py:multivariate_t"])
# ---- empirical
p("Empirical copula is a distribution function",
  "For every smoothing, EmpiricalCopula.cdf lies in [0,1], is monotone in every coordinate, 0 when a coordinate is 0 (smoothing none: below the smallest rank) and 1 at (1,...,1) with zero offset.",
  "all samples, all points",
  "All samples.",
  [EM+"_distribution.pyx",EM+"distribution.py",EM+"empirical.py:EmpiricalCopula.cdf"])
p("Smoothed empirical copulas have uniform margins",
  "Without ties the checkerboard and beta smoothed copulas satisfy cdf(1,..,u,..,1) == u for every u, so they are genuine copulas.",
  "all samples without ties, all u",
  "All samples and continuum.",
  [EM+"_distribution.pyx:_emp_copula_checkerboard",EM+"_distribution.pyx:_emp_copula_beta"])
p("Empirical sampling only returns observed rows",
  "EmpiricalCopula.random returns rows of the source data and to_marginals maps every u in [0,1] to an observed value of that column, monotonically.",
  "all samples and draws",
  "All draws incl. end points.",
  [EM+"empirical.py:EmpiricalCopula.random",EM+"empirical.py:EmpiricalCopula.to_marginals"])
# ---- indep, marginal
p("Independence copula",
  "cdf is the product of the coordinates (sum of logs with log=True), pdf is 1 (log 0) everywhere in the cube, fitting changes nothing.",
  "all dimensions and points",
  "All points.",
  ["copulae/indep/indep.py:IndepCopula"])
p("Marginal copula follows Sklar's theorem",
  "MarginalCopula.cdf(x) = C(F1(x1),..,Fd(xd)) and pdf = c(F(x)) prod f_i(x_i) (log version: sum) for every point, whatever the numeric type of the input.",
  "all margins, copulas, points",
  "All points.",
  ["copulae/marginal/marginal.py:MarginalCopula"])
p("Marginal specification resolution",
  "Marginal names resolve case-insensitively to the advertised family, unknown names raise, missing parameters take the documented default, the number of margins always equals the dimension.",
  "all names/lists/dictionaries",
  "All inputs.",
  ["copulae/marginal/univariate.py","copulae/marginal/marginal.py"])
# ---- gof
p("Simulated p-values lie strictly inside (0,1)",
  "exch_test, rad_sym_test and gof_copula report (k+0.5)/(N+1) style p-values strictly between 0 and 1, decreasing in the observed statistic.",
  "all observed/simulated statistics, all N >= 1",
  "All outcomes.",
  ["copulae/gof/exchangeability.py","copulae/gof/radial_symmetry.py","copulae/gof/goodness_of_fit/goodness_of_fit.py"])
p("Exchangeability statistic",
  "The exchangeability statistic is non-negative, unchanged when the two columns are swapped, and zero when the sample is its own mirror image.",
  "all bivariate samples",
  "All samples.",
  ["copulae/gof/_exchangeability.pyx"])
p("Radial symmetry statistic",
  "The radial symmetry statistic is non-negative, unchanged when the sample u is replaced by 1-u, and zero for a radially symmetric sample.",
  "all samples in any dimension",
  "All samples.",
  ["copulae/gof/_radial_symmetry.pyx"])
p("Resampling indices stay in range",
  "The bootstrap replication of the exchangeability test indexes ranks within 0..n-1 for every sample, ties pattern and random bits.",
  "all samples and random bit strings",
  "Memory-safety for all inputs (bounds checks are off).",
  ["copulae/gof/_exchangeability.pyx"])
# ---- gmc
p("Mixture parameters stay valid",
  "GMCParam always has non-negative probabilities summing to 1 and arrays of consistent shape; invalid assignments raise and change nothing.",
  "all assignment histories",
  "Histories.",
  [GMC+"parameter.py:GMCParam"])
p("GMC parameter vectors round-trip",
  "from_vector(to_vector(p)) == p for every valid parameter with non-degenerate probabilities.",
  "all numbers of clusters and dimensions",
  "All sizes.",
  [GMC+"parameter.py:GMCParam.to_vector",GMC+"parameter.py:GMCParam.from_vector"])
p("GMC density and cdf mix the components",
  "pdf = sum_k p_k phi_k, cdf likewise, log=True gives the log of that number.",
  "all parameters and points",
  "All points.",
  [GMC+"gmc.py:GaussianMixtureCopula.pdf",GMC+"gmc.py:GaussianMixtureCopula.cdf"])
p("EM steps keep a valid mixture",
  "Each E step gives row-stochastic responsibilities, each M step gives probabilities summing to 1 and symmetric positive semi-definite covariances, so every iterate is valid; the best parameter seen is returned with its log-likelihood.",
  "all data, all parameters, any number of iterations",
  "Unbounded iterations.",
  [GMC+"estimators/em.py",GMC+"loglik.py"])
p("GMC marginal cdf approximation",
  "The marginal mixture cdf lies in [0,1], is monotone and symmetric about the mean for a single component; its inverse is computed on a grid that covers all components.",
  "all mixtures and points",
  "All points.",
  [GMC+"marginals.py"])
