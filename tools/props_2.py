"""Properties added while the model grew."""
P = []
def p(title, statement, quantifier, why, anchors):
    P.append(dict(title=title, statement=statement, quantifier=quantifier, why_tests_cant=why, anchors=anchors))
p("Chebyshev evaluation sums the series",
  "cheb_eval(c, x, a, b) equals c_0/2 + sum_{i>=1} c_i T_i((2x-a-b)/(b-a)) for every coefficient array, with T_i(cos t) = cos(i t).",
  "all coefficient arrays of every length, all intervals and points",
  "The recurrence is unrolled to an arbitrary order.",
  ["copulae/special/_specfunc.pyx:cheb_eval"])
p("Sibuya sums agree across methods",
  "dsum_sibuya gives the mass function of a sum of n Sibuya(alpha) variables (the n-fold convolution) for methods log, direct and diff, plain and logarithmic; it is non-negative and zero for x < n.",
  "all x, all vectors n, all alpha in (0,1]",
  "All integers, a continuum of alpha.",
  ["copulae/archimedean/auxiliary.py:dsum_sibuya"])

p("Rows outside the unit cube have no density",
  "The pdf of an Archimedean copula answers nan for every row that has a coordinate outside [0, 1] or a nan coordinate, whatever the other rows are, and the answer has one entry per row.",
  "all parameters, all arrays of rows, all positions of invalid rows",
  "The mask is applied in some branches only and depends on whether any other row is valid; a test fixes one array.",
  ["copulae/archimedean/clayton.py:108-137", "copulae/archimedean/frank.py:128-151", "copulae/archimedean/gumbel.py:185-220", "copulae/archimedean/_shared.py:6-17"])
p("Frank's tau and rho are proper functions of theta",
  "debye1/debye2 of frank.py extend the Debye functions to all non-zero numbers; tau and rho of the Frank copula are odd in theta, strictly increasing, inside (-1,1) and carry the sign of theta; drho is the derivative of rho.",
  "all real theta",
  "Continuum; monotonicity and derivatives.",
  ["copulae/archimedean/frank.py:66-68", "copulae/archimedean/frank.py:201-212", "copulae/archimedean/frank.py:220-294"])
p("Gumbel frailties are positive stable variates",
  "skew_stable.rvs as called by GumbelCopula.random returns, for every theta > 1 and all draws, a positive number, namely Kanter's formula for the positive stable law with index 1/theta; the sampled coordinates lie in (0,1).",
  "all theta > 1, all uniform and exponential draws",
  "Continuum of draws and parameters.",
  ["copulae/stats/stable/stable.py:130-156", "copulae/stats/stable/stable.py:165-174", "copulae/archimedean/gumbel.py:228-242"])
p("The stable log-density is the logarithm of the density",
  "skew_stable.logpdf(x) = log(skew_stable.pdf(x)) at every entry of every array; invalid parameters are refused; the mode used by the S2 parametrisation is odd in beta.",
  "all arrays, scales, auxiliary densities",
  "Depends on which other entries of the array underflow.",
  ["copulae/stats/stable/stable.py:44-106", "copulae/stats/stable/stable.py:158-192", "copulae/stats/stable/pdf.py:185-203"])
p("Density of the empirical beta copula", "For smoothing 'beta' EmpiricalCopula.pdf is the mixed partial derivative of EmpiricalCopula.cdf at every interior point, pdf(log=True) is its logarithm (-inf where the density is 0), and the other smoothings raise.", "all samples, tie methods, points", "Derivative identity on a continuum, for all samples.", ["copulae/empirical/empirical.py:EmpiricalCopula.pdf"])
p("Fitting a copula with margins", "MarginalCopula.fit refits every margin within its own family to its own column and the joint copula to the whole data; params reports the fitted values in order; a fit that raises leaves the copula as it was.", "all data, margins and joint copulas", "All shapes and all failures of the inner fit.", ["copulae/marginal/marginal.py:MarginalCopula.fit", "copulae/marginal/univariate.py:get_marginal_detail"])

p("The goodness-of-fit bootstrap keeps the dependence of the fitted copula",
  "gof_copula's statistic is the sum of squared differences between the empirical and the fitted copula, so non-negative. When the data contain ties, the bootstrap imposes the tie pattern of each column on a sample of the fitted copula without changing the dependence between the columns.",
  "all data sets with or without ties, all samples of the fitted copula",
  "The damage is only visible as a wrong p-value; no example shows that the dependence of every possible sample is discarded.",
  ["copulae/gof/goodness_of_fit/goodness_of_fit.py", "copulae/gof/goodness_of_fit/utils.py"])

p("The distribution function of a Gaussian mixture copula is a copula",
  "GaussianMixtureCopula.cdf is grounded (0 when a coordinate is 0), has uniform margins and is 1 at (1,...,1).",
  "all parameters, all points",
  "A property of a function on the cube.",
  ["copulae/mixtures/gmc/gmc.py:GaussianMixtureCopula.cdf"])
p("The copula likelihood is a ratio of densities",
  "gmcm_log_likelihood is the logarithm of the product over the observations of the mixture density divided by the product of the marginal mixture densities; components without dependence and one cluster give 0.",
  "all parameters, numbers of clusters, dimensions and samples of any size",
  "All sizes; logarithms of sums and products.",
  ["copulae/mixtures/gmc/loglik.py"])
p("The mixture copula object stays consistent",
  "After a successful fit the parameters have the object's sizes and come from the method asked for; parameters of other sizes are refused; a fit that fails leaves the parameters as they were.",
  "all starting values, methods and outcomes of the inner fits",
  "All failures of the inner fits.",
  ["copulae/mixtures/gmc/gmc.py:GaussianMixtureCopula.fit", "copulae/mixtures/gmc/gmc.py:GaussianMixtureCopula.params"])
p("The k-means start is made of group statistics",
  "k_means turns any assignment of the observations to clusters into valid parameters: the shares, means and covariance matrices of the groups.",
  "all data, dimensions, numbers of clusters and assignments",
  "All assignments, also those with empty or single groups.",
  ["copulae/mixtures/gmc/estimators/k_means.py"])

p("The real dilogarithm is accurate everywhere",
  "dilog(x) never returns nan, and apart from the rounding of each operation it differs from the dilogarithm -Re int_0^x log(1-s)/s ds by less than 1e-15 at every real x; near 0 the relative difference is at most the machine epsilon.",
  "all real arguments",
  "A bound over the whole line across seven branches and two loops with data-dependent stopping; the reference value is an integral.",
  ["copulae/special/_specfunc.pyx:_dilog", "copulae/special/_specfunc.pyx:dilog_xge0", "copulae/special/_specfunc.pyx:dilog_series_1", "copulae/special/_specfunc.pyx:dilog_series_2"])
p("The Debye functions are accurate everywhere",
  "debye_1 and debye_2 return nan exactly for negative arguments; at every positive argument, apart from the rounding of each operation, they differ from D_n(x) = n/x^n int_0^x t^n/(e^t-1) dt by less than 3e-16, and at 0 they return the limit 1. Frank's tau and rho computed from them are within 1e-15/|theta| and 4e-15/|theta| of their formulas.",
  "all real arguments, all theta with |theta| > 1e-8",
  "A bound over the whole half line across six branches, a loop with data-dependent length and two coefficient tables; the reference value is an integral.",
  ["copulae/special/_specfunc.pyx:_debye_1", "copulae/special/_specfunc.pyx:_debye_2", "copulae/archimedean/frank.py:debye1", "copulae/archimedean/frank.py:debye2"])
p("The Clausen function is accurate on one period",
  "For every x with 0 < x < 2 pi, clausen(x) is not nan and, apart from the rounding of each operation, differs from Cl_2(x) = -int_0^x log(2 sin(t/2)) dt by at most 4e-19 times the distance of x to the nearer end of the period; for negative x it is the negative of the value at -x.",
  "all x in one period, positive or negative",
  "A bound over an interval across the table, the cut for tiny arguments and the reflection; the reference value is an improper integral.",
  ["copulae/special/_specfunc.pyx:_clausen", "copulae/special/_specfunc.pyx:clausen_constants"])
p("The elliptical densities are the densities of their copulas",
  "In every dimension pdf of the Gaussian and of the Student copula is the joint density of the quantiles over the product of the marginal densities, hence the mixed derivative of the copula; log gives its logarithm. For a pair the copula lies between the Frechet bounds, is exchangeable and radially symmetric, and the density is positive and integrates to 1 along every line u = const. The Student copula has a distribution function.",
  "all dimensions, correlation matrices with positive determinant, degrees of freedom and points inside the cube",
  "Derivatives and improper integrals over the whole cube, for every correlation and every number of degrees of freedom.",
  ["copulae/elliptical/gaussian.py:GaussianCopula.pdf", "copulae/elliptical/gaussian.py:GaussianCopula.cdf", "copulae/elliptical/student.py:StudentCopula.pdf", "copulae/elliptical/student.py:StudentCopula.cdf"])
p("The elliptical tail coefficients are the limits of the copulas",
  "Every entry of lambda_ of the Gaussian and of the Student copula is the limit of C(u,u)/u at 0 and of (1-2u+C(u,u))/(1-u) at 1 for the copula C of that pair.",
  "all dimensions, pairs, correlations and degrees of freedom",
  "A limit of a quotient of a double integral, for every correlation.",
  ["copulae/elliptical/gaussian.py:GaussianCopula.lambda_", "copulae/elliptical/student.py:StudentCopula.lambda_"])
p("tau of the Archimedean copulas is Kendall's tau of their cdf",
  "tau of the Clayton, Gumbel and Frank copula is Kendall's tau of its bivariate distribution function, 1 minus 4 times the integral of dC/du dC/dv over the unit square; itau gives the parameter whose copula has the given tau.",
  "all parameters: Clayton theta > -1 other than 0, Gumbel theta >= 1, Frank |theta| > 1e-8",
  "A double integral over the unit square, for every parameter.",
  ["copulae/archimedean/clayton.py:ClaytonCopula.tau", "copulae/archimedean/gumbel.py:GumbelCopula.tau", "copulae/archimedean/frank.py:FrankCopula.tau", "copulae/archimedean/clayton.py:ClaytonCopula.itau", "copulae/archimedean/gumbel.py:GumbelCopula.itau"])
p("rho and tau of the Gaussian copula are Spearman's rho and Kendall's tau of its cdf",
  "For a pair with correlation r, rho = 6 asin(r/2)/pi is Spearman's rho of the Gaussian copula's distribution function, 12 times its integral over the unit square minus 3, and tau = 2 asin(r)/pi is its Kendall's tau, 1 minus 4 times the integral of dC/du dC/dv, and also 4 C(1/2,1/2) - 1; irho and itau give the correlation whose copula has the given coefficient.",
  "all correlations in (-1, 1)",
  "A double integral over the unit square of a function that is itself a double integral, for every correlation.",
  ["copulae/elliptical/abstract.py:AbstractEllipticalCopula.rho", "copulae/elliptical/abstract.py:AbstractEllipticalCopula.tau", "copulae/elliptical/abstract.py:AbstractEllipticalCopula.itau", "copulae/elliptical/gaussian.py:GaussianCopula.irho", "copulae/elliptical/gaussian.py:GaussianCopula.cdf"])
p("rho of the Student copula is Spearman's rho of the copula",
  "The attribute rho of the Student copula, inherited from the elliptical base class, is Spearman's rho of the copula whose density pdf computes; every copula has exactly one Spearman's rho, between -1 and 1.",
  "all correlations in (-1, 1) and degrees of freedom",
  "A comparison of a closed formula with a double integral of a double integral; no finite set of evaluations gives the integral exactly.",
  ["copulae/elliptical/abstract.py:AbstractEllipticalCopula.rho", "copulae/elliptical/student.py:StudentCopula.pdf"])
p("rho of the Frank copula is Spearman's rho of the copula",
  "rho of the Frank copula, 1 + 12/theta (D2(theta) - D1(theta)), is Spearman's rho of the copula, 12 times the integral of C over the unit square minus 3. The values of tau and rho that the code returns, with its tables, series and the tangent near 0, are within 1e-7 and 4e-7 of Kendall's tau and Spearman's rho, and within 1e-15/|theta| and 4e-15/|theta|.",
  "all theta other than 0",
  "A double integral over the unit square, for every parameter, against a formula with two special functions.",
  ["copulae/archimedean/frank.py:FrankCopula.rho", "copulae/archimedean/frank.py:FrankCopula._rho", "copulae/archimedean/frank.py:FrankCopula.tau"])
p("itau of the Frank copula returns the one parameter with the given Kendall's tau",
  "For 1e-16 <= |tau| <= 1 - 1e-15 itau's first bracket contains a sign change away from 0, so the root finder returns a parameter; the Frank copula with that parameter has Kendall's tau equal to tau, and no other Frank copula has. tau = 0 gives 0; an array with an entry |tau| >= 1 raises and gives no parameter.",
  "all tau, all arrays of tau, every solver that finds a root in a sign-changing bracket of a continuous function",
  "Uniqueness needs monotonicity of tau on the whole line; the solver is arbitrary.",
  ["copulae/archimedean/frank.py:FrankCopula.itau", "copulae/archimedean/frank.py:FrankCopula._tau", "copulae/special/optimize.py:find_root"])
p("The stable density is Nolan's integral",
  "For alpha other than 1, aux_f1 with exact quadrature and root finding returns Nolan's integral for the density of the stable law, up to the part it cuts off (at most 15e-15 before the factor alpha/(pi |alpha-1| |x-zeta|)), and its logarithm with log; its exponent is Nolan's, monotone in the angle, and is 1 at the one peak of the integrand; skew_stable.pdf divides by gamma.",
  "all alpha in (0,2) other than 1, beta in [-1,1], x",
  "An improper integral split at roots found numerically, for a continuum of parameters.",
  ["copulae/stats/stable/pdf.py:aux_f1", "copulae/stats/stable/stable.py:skew_stable.pdf", "copulae/stats/stable/common.py:xexp"])
p("The stable density is mirrored when beta changes sign",
  "pdf(x, alpha, -beta, gamma, delta) = pdf(2 delta - x, alpha, beta, gamma, delta) in the parametrisations S0 and S1, value and log, scalars and arrays; aux_f1(-x, alpha, -beta) = aux_f1(x, alpha, beta) whatever the quadrature and root finder do.",
  "all parameters (for alpha = 1: beta = 0), all points",
  "An equality of two computations for every integrator and every parameter.",
  ["copulae/stats/stable/pdf.py:aux_f1", "copulae/stats/stable/pdf.py:pareto", "copulae/stats/stable/stable.py:skew_stable.pdf"])
p("The stable density is not 0 where the law has mass",
  "aux_f1 returns 0 only where the density is negligible; in particular a totally skewed law with alpha < 1 has a positive density on its half line, e.g. the Levy density at alpha = 1/2.",
  "all alpha < 1, beta = 1, x > zeta",
  "The failing test compares the sum of two angles with 0; a test needs a reference density for the skewed case.",
  ["copulae/stats/stable/pdf.py:aux_f1", "copulae/stats/stable/stable.py:skew_stable.pdf"])
p("The stable density at alpha = 1 with beta > 0 is Nolan's integral",
  "For 0 < beta <= 1, aux_f2 with exact quadrature and a root finder that stays in its bracket returns Nolan's integral for alpha = 1, less at most pi/(4 beta) 1.1e-10 (the part it cuts off), and its logarithm with log; the exponent increases with the angle; the density exists, is unique and positive.",
  "all x and all beta in (0,1]",
  "An improper integral split at a root found numerically, for a continuum of parameters.",
  ["copulae/stats/stable/pdf.py:aux_f2", "copulae/stats/stable/common.py:xexp"])
p("The stable density at alpha = 1 covers negative beta",
  "For beta < 0 the law is the mirror image of the law with -beta, and aux_f2 and skew_stable.pdf return its density.",
  "all beta in [-1,0) and all x",
  "The cut-off uses np.size(beta) where the sign of beta is meant; whether the root search fails depends on 1000 bracket enlargements for a continuum of x.",
  ["copulae/stats/stable/pdf.py:aux_f2", "copulae/stats/stable/stable.py:skew_stable.pdf", "copulae/special/optimize.py:find_root"])
p("Fitting a mixture copula by a minimiser does not lower the likelihood",
  "The objective of method 'sgd' is minus the copula log-likelihood of the mixture a vector stands for, and at the start it is that of the start itself; what comes back is a valid mixture of the same sizes with weights summing to 1, the reported value is minus its log-likelihood, and it is at least as likely as the start, also seen through GaussianMixtureCopula.fit.",
  "all data, all valid starts with two or more components, all keyword arguments, every minimiser that evaluates its start and does not go up",
  "The minimiser and the component densities are arbitrary; the statement needs the round trip through the parameter vector for every mixture.",
  ["copulae/mixtures/gmc/estimators/sgd.py:gradient_descent", "copulae/mixtures/gmc/estimators/sgd.py:create_objective_function", "copulae/mixtures/gmc/gmc.py:GaussianMixtureCopula.fit"])
p("max_iter limits the iterations of method 'sgd'",
  "The limit max_iter given to fit reaches the minimiser as option maxiter, whatever the method of minimisation and the other options, and a mixture of one component can be fitted.",
  "all methods, all optim_options, all limits",
  "Over all keyword dictionaries and methods; tests use the default method.",
  ["copulae/mixtures/gmc/estimators/sgd.py:get_default_option", "copulae/mixtures/gmc/estimators/sgd.py:gradient_descent", "copulae/mixtures/gmc/gmc.py:GaussianMixtureCopula.fit"])
p("dilog_complex computes the complex dilogarithm",
  "For z = r exp(i theta) with |Im z| >= 10 machine epsilons, dilog_complex returns numbers within 2e-12 of the real and imaginary part of Li2(z) = - int_0^1 Log(1-tz)/t dt; on the real axis the real part is within 2e-13 and the imaginary part is 0 left of 1 and the limit from below, - pi ln x, right of 1. The dilogarithm exists, is unique off the cut and satisfies the conjugation, reflection and inversion formulas the branches use.",
  "all r > 0 and theta in [-pi, pi]; all complex x + i y; inside the unit circle all angles",
  "Four series and three functional equations over the whole plane, against an integral; tests sample points.",
  ["copulae/special/_specfunc.pyx:_dilog_complex", "copulae/special/_specfunc.pyx:dilogc_unit_disk", "copulae/special/_specfunc.pyx:dilogc_fundamental", "copulae/special/_specfunc.pyx:dilogc_series_1", "copulae/special/_specfunc.pyx:dilogc_series_2", "copulae/special/_specfunc.pyx:dilogc_series_3", "copulae/special/dilog.py:dilog_complex"])
p("dilog_complex depends on the point only and is right next to the cut",
  "Two angles of the same point give the same value, and next to the cut [1, oo) the imaginary part has the sign of Im z.",
  "all points above the cut with 0 < Im z < 10 machine epsilons; angles beyond pi",
  "The strip is thinner than any grid of test points; the error is as large as pi ln x.",
  ["copulae/special/_specfunc.pyx:_dilog_complex", "copulae/special/dilog.py:dilog_complex"])
p("dilog_complex on arrays works entry by entry and leaves its arguments alone",
  "For arrays of two or more entries the result is the function applied to each pair, in whatever order the threads run; the caller's arrays keep their values, also when the same array is passed for radius and angle.",
  "all lengths, all memory layouts of the two arrays, all orders of the parallel loop",
  "Over all orders of a parallel loop and all ways two arrays can share memory.",
  ["copulae/special/_specfunc.pyx:dilog_complex", "copulae/special/_specfunc.pyx:mapc_dbl_p", "copulae/special/_specfunc.pyx:mapc_dbl_s"])
p("Sampling a Clayton copula in three or more dimensions",
  "Given the gamma variate v, the row is inside the unit cube and is below a bound u with the probability the product of exp(-v phi(u_i)) over the coordinates; the mean of this over the gamma distribution with shape 1/theta is the cdf of the copula at u.",
  "all theta >= 1e-7, all dimensions, all bounds u in the open cube, all draws",
  "A statement about the distribution of the samples; tests compare a finite sample with a tolerance.",
  ["copulae/archimedean/clayton.py:ClaytonCopula.random", "copulae/archimedean/clayton.py:ClaytonCopula.psi"])
p("Sampling a Frank copula in three or more dimensions",
  "The entries of a row are numbers in the unit interval with uniform margins, for every theta >= 1e-7.",
  "all theta, all dimensions, all draws",
  "A statement about the distribution of the samples and the set of draws that give nan; tests compare shapes.",
  ["copulae/archimedean/frank.py:FrankCopula.random", "copulae/archimedean/frank.py:FrankCopula.psi", "copulae/stats/log.py:random_log_series_ln1p"])
p("Fixed degrees of freedom stay fixed",
  "StudentCopula.fit with fix_df=True leaves the degrees of freedom at the value the copula had before, accepts any dictionary of options and leaves it as it is.",
  "all data, all starting points, all minimisers that report success only where the constraints they were given are answered with 0, all methods",
  "Over every minimiser: the constraint reads an attribute that the objective overwrites, so its value depends on the order of the evaluations.",
  ["copulae/elliptical/student.py:StudentCopula.fit", "copulae/copula/estimator/max_likelihood.py:estimate_max_likelihood_params", "copulae/copula/estimator/estimator.py:initial_params"])
p("Assigning to one copula changes only that copula",
  "Setting a correlation of an elliptical copula changes what the copula shows as the assignment on values says, and changes no other copula, no array the caller passed as params and no recorded fit.",
  "all memory layouts of the parameter arrays, all indices and values, all sequences of later assignments",
  "Over all ways objects can share arrays and all later assignments; a test looks at the object it assigned to.",
  ["copulae/elliptical/abstract.py:AbstractEllipticalCopula.__setitem__", "copulae/elliptical/gaussian.py:GaussianCopula.params", "copulae/elliptical/student.py:StudentCopula.params", "copulae/copula/estimator/corr_inversion.py:estimate_corr_inverse_params", "copulae/copula/estimator/max_likelihood.py:estimate_max_likelihood_params"])
p("Gumbel samples in any dimension follow the Gumbel copula",
  "A row of GumbelCopula.random is below (u_1, ..., u_d) with probability C(u_1, ..., u_d): the frailty of skew_stable.rvs has the positive stable law, whose Laplace transform at t is exp(-t^(1/theta)).",
  "all theta > 1, all dimensions, all points inside the cube",
  "A statement about the distribution of the samples: an integral over all draws of the frailty and of the uniforms.",
  ["copulae/archimedean/gumbel.py:GumbelCopula.random", "copulae/stats/stable/stable.py:skew_stable.rvs", "copulae/archimedean/gumbel.py:GumbelCopula.cdf"])
p("Multivariate t samples follow the multivariate t density",
  "A row of multivariate_t.rvs is mean + Z / sqrt(W / df) with Z normal and W an independent chi-square variate, and the density of such a row is multivariate_t.pdf; StudentCopula.random applies the t distribution function to every entry, so that a row is below u exactly where the t variates are below the quantiles of u. This holds with and without a seed.",
  "all dimensions, scale matrices, means, degrees of freedom up to 10000, points, generators and seeds",
  "A statement about the distribution of the samples: an integral over the chi-square variate; and about the independence of two streams of random numbers for all seeds.",
  ["copulae/stats/_multivariate_t.py:multivariate_t.rvs", "copulae/stats/_multivariate_t.py:multivariate_t.pdf", "copulae/elliptical/student.py:StudentCopula.random"])
p("A sample of n observations has n rows",
  "random(n) returns a table of n rows and dim columns, under the column names of the data if the copula was fitted to a DataFrame, for every copula class and every n; a copula with margins returns the quantiles of the entries.",
  "all classes, parameters, dimensions, n, generators, seeds, margins",
  "Over all sizes including a single observation, all branches of the samplers and all combinations of decorators.",
  ["copulae/copula/base.py:BaseCopula.random", "copulae/utility/annotations/reshape.py:cast_output", "copulae/elliptical/gaussian.py:GaussianCopula.random", "copulae/elliptical/student.py:StudentCopula.random", "copulae/marginal/marginal.py:MarginalCopula.random"])
p("A seed makes a sample reproducible and concerns only that sample",
  "random(n, seed) does not depend on what was drawn before, and does not change what other code draws later from the global generator.",
  "all classes, n, seeds, states of the generator, later samples",
  "Over all states of a generator and all later draws.",
  ["copulae/stats/uniform.py:random_uniform", "copulae/elliptical/gaussian.py:GaussianCopula.random", "copulae/stats/_multivariate_t.py:multivariate_t.rvs", "copulae/mixtures/gmc/gmc.py:GaussianMixtureCopula.random", "copulae/empirical/empirical.py:EmpiricalCopula.random"])
p("Options of a fit with margins reach the joint copula under their names",
  "Every option given to MarginalCopula.fit, or its default, is the value of the option of the same name in the fit of the joint copula, and the default options are valid for every joint copula.",
  "all options, all joint copulas",
  "Over all combinations of options and all classes that can be the joint copula.",
  ["copulae/marginal/marginal.py:MarginalCopula.fit", "copulae/mixtures/gmc/gmc.py:GaussianMixtureCopula.fit", "copulae/mixtures/gmc/estimators/em.py:LogLik"])
p("Evaluating a method leaves its argument alone",
  "psi and itau return the values at the numbers passed, leave every array of the caller as it was, and return the same when called again.",
  "all families, parameters, arguments (numbers, lists, arrays), all contents of the memory, all values numpy leaves in unset masks",
  "Over all memory layouts and all repeated calls; a test compares the returned values only.",
  ["copulae/archimedean/frank.py:FrankCopula.psi", "copulae/archimedean/clayton.py:ClaytonCopula.psi", "copulae/archimedean/gumbel.py:GumbelCopula.psi", "copulae/archimedean/gumbel.py:GumbelCopula.itau", "copulae/utility/annotations/reshape.py:cast_input"])
p("The form in which numbers are passed does not matter",
  "A method decorated with cast_input gives the same values for a list and an array, for a number and an array with one element, for integers and the same floats, and for an argument passed by keyword and by position.",
  "all decorated methods, all numbers, all forms",
  "Over all combinations of methods and forms of arguments; tests use one form per method.",
  ["copulae/utility/annotations/reshape.py:cast_input", "copulae/utility/annotations/reshape.py:squeeze_output", "copulae/archimedean/frank.py:FrankCopula.ipsi", "copulae/archimedean/frank.py:FrankCopula.itau", "copulae/archimedean/gumbel.py:GumbelCopula.dtau", "copulae/archimedean/gumbel.py:GumbelCopula.itau"])
p("A summary can be displayed and shows every parameter",
  "The summary of a copula shows every parameter, as text and as html; the summary of a fit shows every setting and result; both can be made after every fit.",
  "all classes, parameters, types of stored numbers, fit methods, dictionaries of settings and results",
  "Over all types a parameter can be stored with and all ways a summary can come about; tests look at one fit per class.",
  ["copulae/copula/summary.py:Summary", "copulae/copula/estimator/summary.py:FitSummary", "copulae/mixtures/gmc/summary.py:Summary", "copulae/elliptical/student.py:StudentCopula.summary"])
p("The text of a mixture parameter can be read back",
  "The weights, means and covariances printed by repr of a GMCParam are list literals of Python that denote exactly the parameter.",
  "all numbers of clusters and dimensions, all parameters",
  "A statement about a printer and a grammar for all sizes.",
  ["copulae/mixtures/gmc/parameter.py:GMCParam.__repr__", "copulae/mixtures/gmc/parameter.py:GMCParam.__str__"])
p("Fits by Spearman's rho work for the copulas that offer them",
  "fit with method 'irho' sets the parameters from the inverse of Spearman's rho, for every copula whose fit documents the method; rho and drho are numbers.",
  "all copula classes, data, spellings of the method, root finders",
  "Over all data and all later behaviour of the root finder: no test data makes the difference.",
  ["copulae/archimedean/abstract.py:AbstractArchimedeanCopula.irho", "copulae/archimedean/clayton.py:ClaytonCopula._rho", "copulae/archimedean/gumbel.py:GumbelCopula._rho", "copulae/archimedean/frank.py:FrankCopula.irho", "copulae/elliptical/student.py:StudentCopula.irho", "copulae/copula/estimator/corr_inversion.py:estimate_corr_inverse_params"])
p("The column names of a copula are those of its last fit",
  "After any sequence of fits, samples carry the column names of the data of the last successful fit, and none if that was an array.",
  "all sequences of fits, data sets, outcomes",
  "Over all histories of an object; tests fit an object once.",
  ["copulae/copula/base.py:BaseCopula.fit", "copulae/utility/annotations/reshape.py:cast_output", "copulae/utility/annotations/reshape.py:shape_first_input_to_cop_dim"])
p("fit_ties decides how the goodness-of-fit test ranks the data it fits",
  "gof_copula fits the copula to the pseudo-observations of the data by fit_ties, for the data and for every replication, and passes the options of the caller to fit.",
  "all data, tie methods, fits, samples, numbers of replications, options",
  "Over all data with ties and all fitting functions: equality of two runs for every input.",
  ["copulae/gof/goodness_of_fit/goodness_of_fit.py:gof_copula", "copulae/gof/goodness_of_fit/utils.py:GofData", "copulae/copula/base.py:BaseCopula.fit"])
p("Replications in several processes are as good as replications in one",
  "With multiprocess=True the replications of the goodness-of-fit test are separate draws from the random number generator, run at the same time, and a later test draws other numbers.",
  "all assignments of tasks to workers, numbers of replications, states of the generator",
  "Over all schedules of the workers; a run of a test sees one.",
  ["copulae/gof/goodness_of_fit/goodness_of_fit.py:GofParametricBootstrap.fit", "copulae/gof/goodness_of_fit/goodness_of_fit.py:GofParametricBootstrap._process_result"])
p("The symmetry tests draw from the generator of numpy without disturbing it",
  "exch_test and rad_sym_test are reproducible when numpy's generator is seeded before, draw new numbers otherwise, and never reset the generator for later code.",
  "all data with and without ties, numbers of replications, states of both generators",
  "Over all states of two random number generators.",
  ["copulae/gof/exchangeability.py:exch_test", "copulae/gof/_exchangeability.pyx:exch_test_cn", "copulae/gof/_exchangeability.pyx:exch_replication", "copulae/gof/radial_symmetry.py:rad_sym_test", "copulae/gof/_radial_symmetry.pyx:rad_sym_replicate"])
p("Stable variates follow the stable density",
  "The variates of skew_stable.rvs have the distribution whose density skew_stable.pdf computes with the same parameters; changing the sign of beta mirrors both.",
  "all alpha in (0, 2], beta in [-1, 1], uniform and exponential draws",
  "Equality of two distributions over a continuum of draws; a sampled histogram only approximates it.",
  ["copulae/stats/stable/stable.py:skew_stable.rvs", "copulae/stats/stable/stable.py:skew_stable.pdf"])
p("Accuracy of the marginal distribution functions of mixtures",
  "The marginal distribution function of a Gaussian mixture copula is within 1.25e-5 of the distribution function of the mixture of normal laws, so samples have uniform margins up to 1.25e-5; small probabilities keep their relative size.",
  "all mixtures with positive variances, coordinates, points",
  "An error bound over the whole line; a test compares finitely many points with another approximation.",
  ["copulae/mixtures/gmc/marginals.py:gmm_marginal_cdf", "copulae/mixtures/gmc/random.py:random_gmcm"])
p("Labels of correlation tables and pseudo-observations",
  "Correlations and pseudo-observations of pandas data have the same numbers as those of the bare arrays and carry the labels of the data: the columns of a data frame, or the names of two series, kept apart when they agree. Reordering the columns of a data frame reorders the table and changes no number at a pair of labels.",
  "all data, labels, orders of columns, methods and treatments of missing values",
  "Relates calls on differently labelled and ordered data; a test checks one table.",
  ["copulae/stats/correlation.py:format_output", "copulae/stats/correlation.py:corr", "copulae/core/misc.py:pseudo_obs"])
p("Reported margins describe the copula",
  "A copula with margins made from the parameters another one reports has margins of the same families with the same parameters, reports the same and computes the same values; the reported dictionaries are not changed.",
  "all joint copulas, margins and parameters, however they were given",
  "A round trip over all families and all ways of passing parameters.",
  ["copulae/marginal/marginal.py:MarginalCopula.params", "copulae/marginal/univariate.py:get_marginal_detail", "copulae/marginal/univariate.py:create_univariate"])
p("Each EM step raises the likelihood of the quantiles",
  "One step of the expectation maximisation, E-step and M-step at fixed quantiles, never lowers the log-likelihood of the normal mixture at these quantiles: the code's gmm_log_likelihood of the new parameter is at least that of the old one. Along a run this holds at every step, at the quantiles of the step.",
  "all dimensions, numbers of components and points, all mixtures with weights whose sum is at most 1 and positive definite covariances, all runs",
  "An inequality over all data and parameters that rests on the interplay of both halves of the step; a test sees single trajectories.",
  ["copulae/mixtures/gmc/estimators/em.py:expectation_maximization", "copulae/mixtures/gmc/estimators/em.py:e_step", "copulae/mixtures/gmc/estimators/em.py:m_step", "copulae/mixtures/gmc/loglik.py:gmm_log_likelihood"])
p("Statistics do not depend on the order of the observations",
  "Reordering the rows of the data changes neither the statistics of the exchangeability, radial symmetry and goodness of fit tests, nor the empirical copula, nor correlation tables, nor the likelihoods and EM steps of mixtures; p-values stay the same once the simulations are the same (goodness of fit), or use the same multipliers at the same observations (exchangeability without ties).",
  "all data, sizes, permutations of the rows, treatments of ties other than 'ordinal', and numbers of replications",
  "A metamorphic relation over all permutations; a test compares two orders.",
  ["copulae/gof/exchangeability.py:exch_test", "copulae/gof/radial_symmetry.py:rad_sym_test", "copulae/gof/goodness_of_fit/goodness_of_fit.py:gof_copula", "copulae/empirical/distribution.py:emp_dist_func", "copulae/stats/correlation.py:corr", "copulae/mixtures/gmc/estimators/em.py:m_step"])
p("Labels of mixture components carry no meaning",
  "Putting the components of a Gaussian mixture into another order changes no density, distribution function, log-likelihood, marginal distribution function or marginal quantile. A run of the expectation maximisation started from the reordered components fails with the same error, or returns the same components in that order with the same convergence flag and log-likelihood.",
  "all dimensions, numbers of components, orders, data, stopping criteria and numbers of iterations",
  "A symmetry over all permutations and whole runs; tests fix one order.",
  ["copulae/mixtures/gmc/gmc.py:GaussianMixtureCopula.pdf", "copulae/mixtures/gmc/loglik.py:gmcm_log_likelihood", "copulae/mixtures/gmc/marginals.py:gmm_marginal_ppf", "copulae/mixtures/gmc/marginals.py:gmm_marginal_cdf", "copulae/mixtures/gmc/estimators/em.py:expectation_maximization"])
p("Tests, empirical copulas and fits see ranks only",
  "Measuring each variable on another strictly increasing scale changes nothing in the tests of exchangeability, radial symmetry and goodness of fit (statistic, p-value and errors), in the empirical copula and its density, and in fits that rank their data.",
  "all data, also with ties, all increasing scales, all treatments of ties (also 'ordinal'), smoothings and options",
  "Invariance under an infinite family of transformations; a test applies one.",
  ["copulae/gof/exchangeability.py:exch_test", "copulae/gof/radial_symmetry.py:rad_sym_test", "copulae/gof/goodness_of_fit/goodness_of_fit.py:gof_copula", "copulae/empirical/empirical.py:EmpiricalCopula.cdf", "copulae/empirical/empirical.py:EmpiricalCopula.pdf", "copulae/copula/base.py:BaseCopula.fit"])
p("The order of the variables carries no meaning",
  "Putting the columns of the data into another order changes no value of the empirical copula and its density at points in that order, no statistic of the tests of radial symmetry and goodness of fit (and no p-value, without ties, for samples in that order), and no density, distribution function or likelihood of a Gaussian mixture whose coordinates are in that order; its margins are the same in the new order. A run of the expectation maximisation on reordered variables fails with the same error, or returns the same mixture with reordered coordinates, the same convergence flag and log-likelihood.",
  "all dimensions, orders, data, smoothings, treatments of ties, mixtures, stopping criteria and numbers of iterations",
  "A symmetry over all permutations and whole runs; tests fix one order.",
  ["copulae/empirical/empirical.py:EmpiricalCopula.cdf", "copulae/empirical/empirical.py:EmpiricalCopula.pdf", "copulae/gof/radial_symmetry.py:rad_sym_test", "copulae/gof/goodness_of_fit/goodness_of_fit.py:gof_copula", "copulae/mixtures/gmc/gmc.py:GaussianMixtureCopula.pdf", "copulae/mixtures/gmc/loglik.py:gmcm_log_likelihood", "copulae/mixtures/gmc/marginals.py:gmm_marginal_ppf", "copulae/mixtures/gmc/estimators/em.py:expectation_maximization"])
p("A mixture copula owns its parameters",
  "Whatever is done to other copulas, other parameter objects and the caller's arrays, a Gaussian mixture copula keeps its weights, means and covariances; setters, to_vector and assignments have on each object the effect they have on values.",
  "all memory layouts, all histories of assignments, element stores, conversions to vectors and fits",
  "Aliasing over unbounded histories; tests use fresh objects each time.",
  ["copulae/mixtures/gmc/gmc.py:GaussianMixtureCopula.params", "copulae/mixtures/gmc/parameter.py:GMCParam.prob", "copulae/mixtures/gmc/parameter.py:GMCParam.means", "copulae/mixtures/gmc/parameter.py:GMCParam.to_vector", "copulae/mixtures/gmc/parameter.py:GMCParam.from_dict", "copulae/mixtures/gmc/estimators/sgd.py:gradient_descent"])
p("Debye functions on arrays and at infinity",
  "Frank's Debye functions give for each entry of an array the value of that entry alone, also next to nan and infinite entries; at the infinities they give the limits of the Debye functions. Kendall's tau and Spearman's rho of the Frank copula at theta = +infinity and -infinity are their limits 1 and -1.",
  "all arrays of numbers, infinities and nan; both infinities",
  "Independence of entries over all arrays and limits of integrals.",
  ["copulae/archimedean/frank.py:debye1", "copulae/archimedean/frank.py:debye2", "copulae/archimedean/frank.py:FrankCopula.tau", "copulae/archimedean/frank.py:FrankCopula._rho"])
p("Turning variables round",
  "Measuring a variable from high to low turns its pseudo-observations u into 1 - u and leaves the other variables alone; the test of radial symmetry gives the same statistic; correlation tables change the sign of the pairs of which one variable is turned; for the Frank, Gaussian and Student copulas of two variables turning one variable changes the sign of the parameter.",
  "all data, all monotone scales, all tie methods, all Frank parameters and points",
  "Symmetry over all data sets and all monotone scales.",
  ["copulae/core/misc.py:pseudo_obs", "copulae/core/misc.py:rank_data", "copulae/gof/radial_symmetry.py:radial_symmetry_test", "copulae/archimedean/frank.py:FrankCopula.cdf", "copulae/stats/correlation.py:corr", "copulae/elliptical/gaussian.py:GaussianCopula.pdf", "copulae/elliptical/student.py:StudentCopula.pdf"])
p("Expectation maximisation stops by the criterion asked for",
  "Under each of the criteria GMCM, GMM and Li a run makes at least one and at most max_iter steps; every step but the last had a gap of at least eps in the quantity the criterion compares, has_converged is true just when the last gap is below eps, and a run without convergence has made max_iter steps. The quantities are the copula's log-likelihoods (GMCM), the mixture's log-likelihoods at the quantiles each parameter was made from (GMM), and the mixture's new against the copula's old one (Li).",
  "all data, start parameters, limits, eps, densities, quantile functions and log-likelihoods",
  "Runs of any length; a wrong entry of the record changes only the number of steps.",
  ["copulae/mixtures/gmc/estimators/em.py:expectation_maximization", "copulae/mixtures/gmc/estimators/em.py:LogLik.has_converged", "copulae/mixtures/gmc/estimators/em.py:LogLik.set"])
p("The scales of a mixture's coordinates carry no meaning",
  "A Gaussian mixture copula depends on its parameters only up to location and scale of each coordinate: measuring coordinate j as a_j x + b_j (a_j > 0) turns the marginal quantiles into a_j x + b_j, leaves marginal probabilities, samples, the copula's log-likelihood and the posterior probabilities of a step alone, gives the next parameter on the same scale, and does not influence when the fit stops.",
  "all mixtures, scales, data, resolutions and numbers of components and dimensions",
  "An invariance over all parameters, scales and data.",
  ["copulae/mixtures/gmc/marginals.py:gmm_marginal_cdf", "copulae/mixtures/gmc/marginals.py:gmm_marginal_ppf", "copulae/mixtures/gmc/loglik.py:gmcm_log_likelihood", "copulae/mixtures/gmc/loglik.py:gmm_log_likelihood_marginals", "copulae/mixtures/gmc/random.py:random_gmcm", "copulae/mixtures/gmc/estimators/em.py:m_step", "copulae/mixtures/gmc/estimators/em.py:LogLik.has_converged"])
p("Stable laws form location-scale families",
  "If s > 0 and the scale gamma is positive, the stable law with scale s gamma and location s delta + t has at s x + t the density of the law with gamma and delta at x divided by s, and gives for the same draws the variate s z + t where the other gives z; likewise log densities differ by log s. In the parametrisation S1 with alpha = 1 the location is s delta + t - (2/pi) beta gamma s log s, as for Nolan.",
  "all alpha, beta, gamma > 0, delta, s > 0, t, parametrisations, points and draws",
  "A relation between the answers at all parameters, scales and points; tests compare single values.",
  ["copulae/stats/stable/stable.py:skew_stable.pdf", "copulae/stats/stable/stable.py:skew_stable.logpdf", "copulae/stats/stable/stable.py:skew_stable.rvs"])
p("Some of the variables",
  "What is said about some of the variables does not depend on the others: with the other coordinates at 1 the cdf of an Archimedean, empirical or independence copula is the cdf of the copula of the remaining variables with the same parameter; pseudo-observations, correlations and (from three dimensions on, with the same frailty) samples of some columns are those columns of the whole.",
  "all dimensions, choices of variables, parameters, data, smoothings, treatments of ties, points and draws",
  "A relation between copulas of different dimensions for all choices of variables; tests fix one dimension.",
  ["copulae/archimedean/abstract.py:AbstractArchimedeanCopula.cdf", "copulae/empirical/empirical.py:EmpiricalCopula.cdf", "copulae/indep/indep.py:IndepCopula.cdf", "copulae/core/misc.py:pseudo_obs", "copulae/stats/correlation.py:corr", "copulae/archimedean/clayton.py:ClaytonCopula.random", "copulae/archimedean/gumbel.py:GumbelCopula.random", "copulae/archimedean/frank.py:FrankCopula.random"])
p("Equal components of a mixture may be merged",
  "A mixture in which components are divided into parts with the same mean and covariance whose weights add up has the same density, log-likelihoods at given quantiles and marginal probabilities. Each part takes its share of the responsibilities, and a step of the expectation maximisation fails for both mixtures or gives mixtures related in the same way.",
  "all mixtures, divisions of components, data and numbers of components and dimensions",
  "A relation between mixtures with different numbers of components; tests fix one number.",
  ["copulae/mixtures/gmc/gmc.py:GaussianMixtureCopula.pdf", "copulae/mixtures/gmc/loglik.py:gmm_log_likelihood", "copulae/mixtures/gmc/loglik.py:gmcm_log_likelihood", "copulae/mixtures/gmc/marginals.py:gmm_marginal_cdf", "copulae/mixtures/gmc/estimators/em.py:e_step", "copulae/mixtures/gmc/estimators/em.py:m_step"])
p("Components of weight 0",
  "A mixture with further components of weight 0 has the same density, log-likelihoods at given quantiles and marginal probabilities, and a fit by expectation maximisation started from it can go on as without them.",
  "all mixtures, numbers of empty components with any means and covariances, data, points, criteria and numbers of steps",
  "A relation between mixtures with different numbers of components; tests start with positive weights.",
  ["copulae/mixtures/gmc/gmc.py:GaussianMixtureCopula.pdf", "copulae/mixtures/gmc/loglik.py:gmcm_log_likelihood", "copulae/mixtures/gmc/marginals.py:gmm_marginal_cdf", "copulae/mixtures/gmc/estimators/em.py:expectation_maximization"])
p("Repeated data",
  "If all observations occur t times in place of once, the dense ranks do not change and the average, least and greatest ranks r become t r - (t - 1)/2, t (r - 1) + 1 and t r; the empirical distribution function without smoothing does not change; a step of the expectation maximisation fails for both or gives the same mixture; the log-likelihood of a mixture and the statistics of the tests of exchangeability and radial symmetry for given pseudo-observations are multiplied by t.",
  "all data, numbers of copies, rows and columns, points, mixtures and treatments of ties except ordinal",
  "A relation between runs on data of different sizes; tests fix one set of data.",
  ["copulae/core/misc.py:rank_data", "copulae/empirical/distribution.py:emp_dist_func", "copulae/mixtures/gmc/estimators/em.py:e_step", "copulae/mixtures/gmc/estimators/em.py:m_step", "copulae/mixtures/gmc/loglik.py:gmm_log_likelihood", "copulae/gof/_exchangeability.pyx:exch_test_stat", "copulae/gof/_radial_symmetry.pyx:rad_sym_test_stat"])
p("One more observation",
  "When one observation is added at the end of n others, each rank of the others stays or rises by at most 1, each of their pseudo-observations moves by at most 1/(n + 2), and the empirical distribution function without smoothing moves by at most 1/(n + 1) at each point.",
  "all data, numbers of observations and variables, added observations, treatments of ties and points",
  "A bound on the effect of any added observation on data of any size; tests fix the data.",
  ["copulae/core/misc.py:rank_data", "copulae/core/misc.py:pseudo_obs", "copulae/empirical/distribution.py:emp_dist_func"])
p("Two samples taken together",
  "If two samples are put one below the other, the empirical distribution function without smoothing is the average of theirs with the numbers of rows as weights, the log-likelihood of a mixture is the sum of theirs, and a step of the expectation maximisation gives the averages of their weights and means with the sums of the responsibilities as weights, and covariances put together from theirs and the distances of the means.",
  "all samples with equally many columns, numbers of rows, points, mixtures and dimensions",
  "A relation between runs on three sets of data of any size; tests fix one.",
  ["copulae/empirical/distribution.py:emp_dist_func", "copulae/mixtures/gmc/loglik.py:gmm_log_likelihood", "copulae/mixtures/gmc/estimators/em.py:e_step", "copulae/mixtures/gmc/estimators/em.py:m_step"])
p("One observation replaced",
  "When one of n observations is replaced by another, each rank of the others moves by at most 1, each of their pseudo-observations by at most 1/(n + 1), and the empirical distribution function without smoothing by at most 1/n at each point.",
  "all data, numbers of observations and variables, replaced and new observations, points and treatments of ties",
  "A bound on the effect of any change of one observation in data of any size; tests fix the data.",
  ["copulae/core/misc.py:rank_data", "copulae/core/misc.py:pseudo_obs", "copulae/empirical/distribution.py:emp_dist_func"])
