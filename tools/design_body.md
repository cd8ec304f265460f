# Formal model of copulae in Rocq (Coq 8.16.1)

## How the work is organised

`rocq/theories/` holds, per area of the code,

* `M_<Area>.v` – the model: total Gallina functions mirroring the Python functions branch by branch.
  Each definition cites the file and lines it models.  No proofs.
* `S_<Area>.v` – small independent specifications used in theorem statements.
* `P_<Area>.v` – lemmas and proofs.
* `T_<Area>.v` – the property theorems, each with `Print Assumptions`, and `Example …_case` showing a concrete
  case that meets the hypotheses.

Naming: `Cnn_<what>` proves (part of) property Cnn of `properties.jsonl`; `_partial` marks a theorem that
covers only part of the property; `_refuted` is a proof that the code, as modelled, violates the property,
with an explicit witness.

## Modelling decisions

* **Numbers.**  float64 is modelled by exact real numbers (`R`), or by integers / rationals where the code
  only compares and counts.  Rounding, overflow and underflow of floats are *not* modelled.  `nan`, `inf` and Python
  exceptions are explicit values (`option`, `ext`, `result`) wherever a branch depends on them: `ext` (Ext.v) has
  finite numbers, both infinities and nan with numpy's arithmetic.  Python integers are `Z`; the int64 arrays of the
  Gumbel coefficients wrap around as in numpy (M_Gumbel.v).
* **Exceptions.**  `result A := Ok a | Err e` with `e` naming the Python exception class.
* **Mutation.**  A method that mutates an object becomes a function returning the new object together with its
  outcome, so that "raises and leaves the object unchanged" can be stated.  Where aliasing decides the result
  (merge_dict, the in-place maps of `_specfunc.pyx`, to_vector of the mixture parameters, shared margins) the model has
  a heap, an explicit array store or an explicit second result.
* **External calls** (scipy/numpy/statsmodels/scikit-learn: eigenvalues, optimisers, root finders, gamma function,
  normal and t distribution functions, rank correlation functions, k-means, ...) are function arguments of the model;
  what is assumed of them is a visible hypothesis of the theorem.  Where the hypothesis is not obviously satisfiable
  there is an existence proof (`gmc_libraries_case`, `P_Rayleigh.rayleigh_exists`).
* **Random draws** are arguments: a theorem holds for all draws.
* **Loops** with a bound in the code are recursions on that bound; loops without one take fuel and answer `None`
  when it runs out, and the theorems say for which fuel they end.

## Trusted base

1. Coq's kernel (8.16.1), as run by `coqc` and `coqchk`.
2. The axioms of Coq's standard library listed below.  They come with the classical real numbers
   (`ClassicalDedekindReals.sig_forall_dec`, `ClassicalDedekindReals.sig_not_dec`), functional extensionality and
   excluded middle (`Classical_Prop.classic`, through Coquelicot and the real analysis of the standard library).
   No axiom is added by this development and none comes from another library.
3. The translation of the Python and Cython text into the definitions of `M_*.v`, done by hand: nothing checks that the
   definitions say what the code does.  Each definition cites the lines it stands for, and its comment names the
   simplifications.  The code was read and never run.
4. The documented behaviour of numpy, scipy, pandas, statsmodels and scikit-learn as far as it is written into the models
   (broadcasting, `np.isclose` tolerances, `rankdata`, `interp1d`, `np.random.choice`, ...).
5. The specifications `S_*.v` and the theorem statements, which are meant to be read.

## What is modelled and what is not

| source (under copulae/) | modelled in | not modelled |
|---|---|---|
| core/misc.py | M_Rank, M_Matrix | pandas wrapping of the result of pseudo_obs; negative offsets of tri_indices |
| core/linalg.py | M_Linalg, M_Elliptical (with nan) | the algorithms behind eigvalsh and cov_nearest |
| core/types.py, types.py, datasets/ | EPSILON only | type aliases, csv loading |
| elliptical/abstract.py, gaussian.py, student.py | M_Elliptical (objects, rho, tau and inverses); M_EllipDensity (cdf, pdf, lambda_); guards in M_Annot; parameters in M_Fit; M_Sample (random) | the algorithms scipy uses for the multivariate normal distribution (its documented integral is a hypothesis); summaries |
| archimedean/abstract.py, clayton.py, frank.py, gumbel.py, _shared.py | M_Archimedean, M_Pdf, M_Debye, M_Stable (Gumbel sampling), M_Gumbel (polynomials), M_Sampling, M_GumbelSampling, M_Spearman (rho, irho), M_Sample (random) | rho of the Gumbel copula (the code returns NotImplemented); summaries |
| archimedean/auxiliary.py | M_Gumbel (dsum_sibuya), M_Archimedean | – |
| special/special_func.py, combinatorics.py | M_Special, M_Gumbel | logarithmic variants of comb and perm with negative arguments; non-integer Stirling arguments |
| special/_specfunc.pyx | M_Specfunc: element maps, Chebyshev evaluation, Clausen's angle reduction and value, guards of the Debye functions; M_Dilog: the real dilogarithm; M_DilogC: the complex dilogarithm with its array loop; M_DebyeSeries: both Debye functions with their tables; M_Clausen: the Clausen table | rounding |
| special/optimize.py | M_Specfunc | scipy's brentq |
| special/trig.py | M_Stable (cospi2, tanpi2) | the remaining functions |
| stats/log.py, uniform.py, _multivariate_t.py | M_Stats, M_StudentSampling (rvs), M_Sample | quality of the generator |
| stats/correlation.py | M_Corr | the scipy coefficient functions |
| stats/stable/ | M_Stable, M_StablePdf, M_StableOne | scipy's quad, brentq and minimize_scalar are arguments |
| copula/base.py, copula/estimator/ | M_Fit, M_Dict, M_Annot (log_lik), M_Summary | the optimiser; layout of summaries |
| utility/dict.py | M_Dict | – |
| utility/annotations/ | M_Annot, M_Cast (cast_input, squeeze_output) | cast_input on exotic objects |
| empirical/ | M_Empirical, M_Sample (random) | pandas wrapping |
| indep/, marginal/ | M_Marginal, M_Sample (random), M_Options (options of fit) | summary of MarginalCopula |
| gof/ | M_Gof | multiprocessing |
| mixtures/gmc/ | M_Gmc, M_Sgd, M_Sample (random), M_Summary (texts) | scipy's minimize (an argument) |

## Plan per property

| id | what is modelled | how it is proved |
|----|------------------|------------------|
| C01–C06 | `rank_data`/`pseudo_obs` over a decidable total order (scipy's rankdata by its documented counting semantics, ordinal by stable position) | counting lemmas on lists, induction |
| C07–C08 | `tri_indices` as nested list comprehension, `create_cov_matrix` as sequential writes into the identity matrix | induction on n; integer square root lemma |
| C09–C10 | matrices as functions of indices over R; eigenvalue oracle | algebra on R |
| C11, C14, C15 | elliptical object state machine with psd oracle | invariant by induction over operation lists |
| C12–C13 | real formulas with asin/sin | Coquelicot derivatives, stdlib trigonometry |
| C16–C20 | generators over R, cdf over lists | Rpower algebra; convexity for the rectangle inequality |
| C21–C25 | dipsi, tau, pdf formulas | `is_derive`, limits |
| C26 | ctor/setter decision logic | case analysis, induction over histories |
| C27 | sampling formulas with draws as arguments | derivative and algebra |
| C28–C29 | coefficient algorithms over a field, Stirling tables | induction on degree (Vandermonde type identities) |
| C30 | Pickands function, M_Pickands for the calls | convexity inequalities; Minkowski's inequality for two terms |
| C31–C32 | DP rows as list recursions over Z | induction, refinement to recurrences |
| C33–C35 | Horner, log helpers, polylog | induction, real analysis |
| C36 | fuelled loop with explicit out-of-fuel value | invariant |
| C37 | array store with a schedule (list of indices) | permutation invariance by induction |
| C38 | angle reduction | witness |
| C39–C40 | finite maps as association lists, nested trees | induction on trees |
| C41–C45 | fit as state machine with optimiser trace as argument | induction over the trace |
| C46–C47 | decorator logic over shapes and labels | lists, permutations |
| C48–C49 | correlation matrix assembly over an abstract pair statistic; Kendall/Pearson bounds | algebra, Cauchy-Schwarz |
| C50–C51 | sampling loop with draws; density formula | case analysis |
| C52–C54 | empirical copula over rationals/reals | counting |
| C55–C57 | indep, marginal | algebra |
| C58–C61 | gof statistics and p-values | algebra, index invariants |
| C62–C66 | gmc parameter objects and EM | invariants |

Further properties: C67 (Chebyshev sums, M_Specfunc), C68 (Sibuya sums, M_Gumbel), C69 (rows outside the cube, M_Pdf), C70 (Frank's tau
and rho, M_Debye), C71–C72 (stable laws, M_Stable), C73 (density of the empirical beta copula), C74 (fit with margins), C75
(bootstrap of the goodness-of-fit test), C76–C79 (mixture copulas, M_Gmc), C80 (real dilogarithm, M_Dilog), C81
(Debye functions, M_DebyeSeries: tables checked by exact arithmetic in PolyQ and PolyZ, series by telescoping bounds), C82
(accuracy of the Clausen function, M_Clausen: table against a polynomial for x cot x, reflection by the duplication formula),
C83–C84 (elliptical densities and tails, M_EllipDensity: a general kernel f(x) f1(z(x,y)) z'(x) is integrated once for the normal and the t
case; the Gaussian integral is computed in P_GaussInt), C85 (Kendall's tau, S_Concord: 1 - 4 x the integral of C_u C_v, reduced in P_Kendall to 1 + 4 x the integral of
generator over derivative), C86 (Spearman's rho and Kendall's tau of the Gaussian copula: P_GaussConc integrates families K(r) Phi(a(r) t + b(r))
over the correlation r; P_GaussConc2 and P_GaussConc3 give primitives in each variable), C87 (rho of the Student copula, refuted with the bivariate Cauchy distribution in closed form,
P_CauchyRho; existence and range of Spearman's rho in P_Spearman), C88 (Spearman's rho of the Frank copula, P_FrankRho; the tangent near 0, P_FrankRho2),
C89 (Frank's itau), C90–C92 (stable density: M_StablePdf, S_StablePdf; integrals over open intervals in P_StableInt, the exponent in
P_StablePdf, the cut-off in P_StablePdf2, the root finding in P_StablePdf3), C93–C94 (alpha = 1: M_StableOne, S_StableOne, P_StableOne),
C95–C96 (mixture copulas fitted by a minimiser: M_Sgd, S_Sgd).
C97–C99 (complex dilogarithm: M_DilogC, S_DilogC). The dilogarithm is specified by its derivative along each ray from 0. Differentiating
under the integral sign gives its derivative along any path; reflection, inversion and the values on the unit circle follow from equal
derivatives (P_DilogC, P_DilogC2, P_DilogC3). The remainders of the two series are bounded along the ray (P_DilogC4, P_DilogC5), the table
of dilogc_series_3 is shown to be the Taylor polynomial of order 6 in ln r at the unit circle, with a bound on the seventh derivative
(P_DilogC6, P_DilogC7), and the branches are put together in P_DilogC8. The array loop is a fold over a memory in which the two arrays are
regions that may overlap (P_DilogC9).
C100–C101 (sampling in three or more dimensions: M_Sampling, S_Sampling). A row is below u exactly when its uniforms are below
exp(-v phi(u_i)); the Laplace transform of the gamma distribution comes from stretching the gamma integral, whose existence is proved
(P_Sampling). For Frank the frailty returned by random_log_series_ln1p is used as modelled in C50.
C102 (fixed degrees of freedom: M_StudentFit, S_StudentFit). A minimiser is a strategy that asks for the objective and for the constraints;
the constraint is evaluated in the state the objective left behind. Proofs by induction over the strategy.
C103 (sharing of parameter arrays: M_Share). A memory of numpy arrays; the `_rhos` of an object is an array and an offset. Item assignments
are split into refusal, rebinding and element stores, and shown to refine `setitem` of M_Elliptical; frame and detachment by induction over
later assignments.
C104 (Gumbel sampling: M_GumbelSampling). The Laplace transform of Kanter's representation: given the angle, the substitution
w = kk r^alpha turns the transform into an integral over r; the integral I(phi) of W(phi, r) t sin(phi) / |r - t e^(i phi)|^2 over r has
the derivative -D(phi) plus boundary terms (differentiation under the integral, P_Kanter); the boundary terms vanish (P_Kanter2), I tends
to 0 as phi -> pi and to pi exp(-t^alpha) as phi -> 0 (P_Kanter3). Improper integrals and their continuity in a parameter: P_HalfLine.

C105 (multivariate t sampling: M_StudentSampling). The generator is a state with draws as functions of it. The density of a row is the
integral over the chi-square variate of a normal density; the integrand is a gamma integrand, stretched. For the seed, the two streams
start from one state; the bound is the inequality 27 y^2 <= 4 (1 + y)^3. That numpy makes the first gamma variate from the first normal
number is a hypothesis (`shares_normals`), visible in the statement.

C106–C107 (method random of every class: M_Sample). The rows are made by the row functions of M_Archimedean, M_Sampling,
M_GumbelSampling, M_StudentSampling and M_Gmc from the draws of an arbitrary generator. Shapes by induction over the rows; seeds by
case analysis over the classes.

C108 (options of a fit with margins: M_Options). Signatures as lists of names with defaults; calls by name and by position.

C109–C110 (arguments of methods: M_Cast). Memory is a list of arrays; cast_input copies lists and numbers into new arrays and passes
arrays on. What numpy leaves in an unset mask is an arbitrary function. The forms of an argument are an inductive type of Python values, and
each method is represented by the operation that decides which forms it takes.

C111–C112 (texts: M_Summary). A summary is the list of entries it shows. The text of a mixture parameter is a list of tokens; Python's
list literals are an inductive relation between tokens and trees, shown to be unambiguous by a stack machine.

C113–C114 (Spearman's rho, labels: M_Spearman, M_Fit). NotImplemented is a value of its own; the root finder is an arbitrary function.
Labels by induction over sequences of fits.

C115–C116 (options and replications of the goodness-of-fit test: M_GofRun, M_Gof). The rest of fit and the samples are arbitrary
functions; ranking pseudo-observations again is an order isomorphism. A pool is a family of generator states, one per worker, all equal at
the start because workers are forked; the assignment of tasks is an arbitrary function, the proof is by induction over the tasks.

C117 (random numbers of the symmetry tests: M_GofRun). The two generators are two abstract states; the witness for the coins is the table of
three rows of C60, all rows reflected or none.

C25, continued (T_PdfHigh): the three regions of dimensions in which the densities are wrong. Frank from 20 dimensions on: the wrapped
polynomial of the polylogarithm is positive next to 0 by continuity and strictly below the exact one, so the density is a number and too low
wherever one coordinate is small (further inside the polynomial may be negative, where the code gives nan and the model's real logarithm says nothing).
Gumbel with 31-50 and 91-120 dimensions: from the findings about gumbel_poly in C29.

C118 (law of the stable variates: M_Stable). The law of a variate is stated through its two draws, as in C104 and C105: given the uniform draw, the
event that the variate is at most x is an event of the exponential draw with an explicit probability; the derivatives of these probabilities are
integrated over the uniform draw. For alpha in (0, 2) other than 1 (T_StableLaw) the event is one side of Nolan's exponent, so the derivative is Nolan's integrand. For alpha = 1 the model's tan(pi/2) is some real number; the proof does not use which.

C119 (accuracy of the marginal distribution functions: M_Gmc, S_Normal). The normal distribution function is any primitive of the normal
density that goes from 0 to 1. The difference to the approximation has the derivative exp(-y^2) h(t), where h is a polynomial of degree 4 in
t = 1/(1 + 0.47047 y). Its sign is known outside four short intervals; inside them the difference changes by little; at four rational points it
is bounded by rational arithmetic with the alternating series of exp and of its integral, and with the bounds for pi of C81.

C120 (labels: M_CorrTable on top of M_Corr and M_Rank). Inputs are arrays, series with an optional name and data frames with column labels;
the table constructor rejects labels of the wrong number. Reordering is a permutation of the columns; the table is read by labels.

C121 (reported margins: M_MarginalParams on top of M_Marginal). The reported dictionaries are new objects in the memory of M_Marginal; the
round trip runs the constructor on them. Same law means same family and same list of parameters, from which cdf, pdf and random follow.

C122 (ascent of the EM: S_GmcAscent and P_GmcAscent on top of M_Gmc). Nothing new is modelled. The density handed to e_step and
gmm_log_likelihood is specified, for positive definite c = l l' with l lower triangular, by exp(-|z|^2/2) / prod (sqrt(2 pi) l_ii), l z = x - mu.
Proof: existence and uniqueness of roots by completing squares and triangular systems; the weighted mean and covariance are the best normal law
for weighted points (whiten the points, compare diagonals of the relative root, ln t <= t - 1); Jensen's inequality for the posteriors; the run
follows by induction over its trajectory (C65_run). Hypotheses: all covariances positive definite, quantiles shaped like the data.

C123 (order of the observations: S_Reorder, T_Reorder, T_ReorderMix). Nothing new is modelled. Sums over the rows are invariant under
permutations, ranks are equivariant (C04), and tests sort by value; fits and scipy's correlations are externals assumed to depend on the set
of rows only. The start of the EM (k-means) is not covered, only its steps and likelihoods.

C124 (labels of components: S_Relabel, T_Relabel on top of M_Gmc). Nothing new is modelled. Sums over components are invariant under
permutations; the grid of the quantiles is permuted, its sorted form is the same because the marginal distribution function is strictly
increasing (C66_cdf); posteriors and updates are carried along by induction over the loop (simulation of log lists).

C125 (scales: S_Scale, T_Scale). Nothing new is modelled. Ranks depend on comparisons only, so the ranks of rescaled data are the same
function; ties are kept because the scales are injective.

C126 (order of the variables: S_Variables, T_Variables). Nothing new is modelled. Products, sums and existence tests over columns are invariant
under permutations; ranks are taken per column; the steps of the EM are carried along by a simulation of the loop as for C124.

C127 (mixture parameters in memory: M_GmcShare, S_GmcShare, T_GmcShare). Modelled: names of arrays, GMCParam objects and copulas; np.ravel and
np.asarray of a contiguous float array are the array itself; to_vector stores into it (parameter.py:36-43); the covs setter copies. Proof:
each step refines the value-level M_Gmc; ownership (no second name) is an invariant of all steps that do not name the owner's things.

C128 (Debye functions on arrays: M_DebyeVec, T_DebyeVec). Modelled: the masked reads and stores of frank.py:237-257, 276-294 and the float
arithmetic of tau and rho at infinite theta. Proof: gather and scatter with one mask are a map; t/(e^t-1) <= exp(-t/2) and t^2/(e^t-1) <= 4
give the limits.

C45, continued (T_StartValue): which number the search returns: the average inversion where the likelihood there is finite, and for the
bivariate Clayton copula below 0 the first of x + 0.2, x + 0.4, ... with a finite likelihood or not below 0. Proof: induction on the number of steps.

C129 (turning variables round: S_Reversal, T_Reversal). Uses the models of ranks, radial symmetry and Frank's cdf. Proof: the numbers of smaller
and not smaller entries add up to n, so ranks counted from the other end are n + 1 minus the rank; for Frank, algebra inside the logarithm.
T_ReversalCorr: induction over the pairs of columns, with scipy odd in either vector as hypothesis. T_ReversalEllip: the closed densities of C83.

C130 (stopping rule of the mixture's fit: S_GmcStop, T_GmcStop). Uses the model of em.py (M_Gmc). Proof: the loop keeps a record whose entries
are functions of the parameters so far (invariant kept), so that the comparison of the last entries is the gap of the specification; induction on
the steps left.

C131 (scales of a mixture's coordinates: S_Rescale, T_Rescale). Uses the models of marginals.py, loglik.py, random.py and em.py (M_Gmc) and the documented
normal densities. Proof: the triangular root of the covariance scales row by row, so the joint density is divided by the product of the scales;
grid, sorting and interpolation commute with an affine map of the values; weighted means and covariances are affine. Li's criterion is refuted. T_RescaleRun: simulation of the loop by the loop on the other scale, whose record
has the same copula likelihoods and mixture likelihoods moved by one constant.

C132 (location and scale of stable laws: S_StableScale, T_StableScale). Uses the models of stable.py (M_Stable, M_StablePdf): parameters are checked and converted
first, then the standardised points are the same for both laws, and only the final division by the scale differs. For logarithms the code takes a 0 for an
underflow, so one point of density 1 is not scaled (C132_log_refuted). Proved by computation on the models; no induction is needed besides the maps over points.

C133 (some of the variables: S_Subset, T_Subset). Uses the models of the Archimedean cdf, of empirical.py, indep.py, pseudo_obs, corr and the sampled rows of three or
more dimensions. Proved by induction on the point (Archimedean), by splitting the product over the variables into kept and other ones (empirical, independence), and by
induction on the chosen columns (samples). Sampling in two dimensions is another algorithm (C27) and not compared.

C134 (merging equal components: S_Merge, T_Merge). Uses the models of loglik.py, marginals.py and em.py (M_Gmc). The relation divided (S_Merge) maps each part to its
component; sums over parts are regrouped into sums over components (sum_parts), and the step follows from the posterior form of the step (P_GmcEm).

C135 (empty components: S_Merge, T_Merge). The relation padded (S_Merge) keeps the components and adds others of weight 0. Values: the added terms of each sum are 0. Fits: refuted, because
em.py raises FitException when a column of responsibilities sums to 0, and the column of an empty component always does.

C136 (repeated data: S_Repeat, T_Repeat, T_RepeatTest). Uses the models of misc.py, emp_dist_func, loglik.py and em.py. The table written t times (repeated, S_Repeat) has row i mod n in row i; sums and counts
over it are t times those over the table, by induction on t. Ranks are compared by rank_among_copies (S_Repeat), mixtures by their numbers (alike). The test statistics are compared through C59_meaning and C60_meaning.

C137 (one more observation: S_OneMore, T_OneMore). Uses the models of misc.py and emp_dist_func. Counts over one more row grow by at most 1, so twice a rank grows by at most 2; the bound for
pseudo-observations follows from C01, the one for the distribution function from each row adding between 0 and 1.

C138 (two samples: S_Join, T_Join). Uses the models of emp_dist_func, loglik.py and em.py. Sums over the rows of the joined table are split into sums over the two samples. For the covariances
the sums of squares about the common mean are moved to the mean of each sample (about_other_point).

C139 (one observation replaced: S_OneChanged, T_OneChanged). As C137: counts of rows that differ at one row differ by at most 1; ordinal ranks are counts in the lexicographic order of value and
position (P_Rank.ordinal_lex); dense ranks depend on the set of values only (P_Rank.dense_mono).

## Assumptions per theorem

What `Print Assumptions` lists, grouped (generated by tools/assumptions.py from the output of the build):

