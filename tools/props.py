# Generates /verif/properties.jsonl.  Usage: python3 tools/props.py
import json, os
P = []
def p(title, statement, quantifier, why, anchors):
    P.append(dict(title=title, statement=statement, quantifier=quantifier,
                  why_tests_cant=why, anchors=anchors))

# --- Lazy tensors --------------------------------------------------------
p("Lazy containers: a read value never silently changes",
  "Once `v[i]` (LazyVector) or `k[i, j]` (LazyMatrix) has been read successfully, every later read of that index returns the same value, whatever rules are added, other indices are set or other indices are read in between; only an explicit assignment to that very index changes it.",
  "all values, all rules, all finite histories of set/get/add_rule/add_left_rule/add_right_rule operations",
  "a test fixes one history of rule additions and reads; the claim is about every interleaving",
  ["stheno/lazy.py: LazyTensor._get, LazyTensor._set, LazyVector._build, LazyMatrix._build"])
p("Lazy containers: rule precedence and failure",
  "The first read of an index that was never assigned uses, in this order: the first-added universal rule whose domain contains both indices, the first-added left rule with that left index whose domain contains the right index, the first-added right rule with that right index whose domain contains the left index; if no rule covers the index the read raises and leaves the container unchanged.",
  "all sets of rules, all domains, all indices, all histories",
  "finite tests check a few overlapping rules, not every rule list",
  ["stheno/lazy.py: LazyVector._build, LazyMatrix._build, LazyTensor._get"])
p("Lazy containers: rule domains are snapshots",
  "The domain of a rule is the content of the index set at the time the rule is added; later mutation of the caller's set does not add or remove indices the rule covers.",
  "all index sets, all later mutations of the set, all subsequent reads",
  "a test mutates one set once",
  ["stheno/lazy.py: LazyVector.add_rule, LazyMatrix.add_rule, LazyMatrix.add_left_rule, LazyMatrix.add_right_rule"])
p("Lazy containers: reads are order independent",
  "When builders are pure, the values returned for a set of reads do not depend on the order in which (or how often) the reads are made, and reading is idempotent.",
  "all rule sets with pure builders, all read sequences",
  "exponentially many read orders",
  ["stheno/lazy.py: LazyTensor._get"])
p("Lazy matrix: diagonal shorthand and identity indexing",
  "`k[p]` is `k[p, p]` for reads and writes; an object indexes by its identity, so `k[p]`, `k[id(p)]` and `k[p, id(p)]` are the same element and equal-but-distinct objects are different elements.",
  "all containers, all keys (objects or integer ids), all histories",
  "tests use a couple of keys",
  ["stheno/lazy.py: _resolve_index, LazyTensor._expand_key, LazyTensor.__getitem__, LazyTensor.__setitem__"])
# --- Naming --------------------------------------------------------------
p("Names form a two-way dictionary",
  "In every measure and after every history of naming calls, successful or failing, `m[name] is p` if and only if `m[p] == name`; no two processes share a name and no process has two names.",
  "all measures, processes, names and all finite histories of naming calls, including ones that raised",
  "invariant over unbounded histories with failures in between",
  ["stheno/model/measure.py: Measure.name, Measure.__getitem__"])
p("Naming: effect and frame of a naming call",
  "Naming p with a name not used by another process succeeds, makes exactly that name refer to p, frees p's previous name, and leaves all other processes' names alone; naming p with a name held by another process raises and leaves all other processes' names alone.",
  "all reachable naming states, all processes and names",
  "frame conditions over all states",
  ["stheno/model/measure.py: Measure.name", "stheno/model/gp.py: GP.name"])
p("A rejected naming call does not lose information",
  "If naming a process raises because the name is taken, the process keeps the name it had before (and, when the process belongs to several measures, either all or none of them are renamed).",
  "all reachable naming states with the target name held by another process",
  "needs the state after an exception for every possible prior state",
  ["stheno/model/measure.py: Measure.name", "stheno/model/gp.py: GP.name setter"])
# --- Default measure -----------------------------------------------------
p("Measure contexts nest",
  "Inside `with m:` a GP constructed without a measure belongs to the innermost entered measure; leaving the block restores the default that was in force before it was entered, also when the body raises; outside all blocks a new GP gets a brand-new measure.",
  "all properly nested sequences of with-blocks, of any depth, over any measures, with arbitrary bodies",
  "nesting depth and the choice of measures are unbounded",
  ["stheno/model/measure.py: Measure.__enter__, Measure.__exit__", "stheno/model/gp.py: GP.__init__"])
# --- The graph -----------------------------------------------------------
p("A measure is a joint distribution: kernels are exact covariances",
  "For every model built through the public API, `m.kernels[p, q](x, y)` is the covariance matrix, under m, of the random variables p(x) and q(y), where a process is determined by its defining equation ((f+g)(x)=f(x)+g(x), (c f)(x)=c f(x), (h f)(x)=h(x) f(x), f.shift(c)(x)=f(x-c), f.stretch(s)(x)=f(x/s), f.select(d)(x)=f(x[d]), f.transform(h)(x)=f(h(x)), f.diff=derivative, cross(f,g)=(f,g), post(f)=f given the data) and independently constructed GPs are independent with their given kernels.",
  "all finite sequences of model-building operations over any number of processes and measures, all inputs of all sizes",
  "the expression graph is unbounded; tests check a handful of compositions on a handful of inputs",
  ["stheno/model/measure.py: Measure._update, add_independent_gp, sum, mul, shift, stretch, select, transform, diff, cross, condition, __call__", "stheno/lazy.py: LazyMatrix", "stheno/model/gp.py: GP"])
p("A measure is a joint distribution: means are exact expectations",
  "For every model built through the public API, `m.means[p](x)` is the expectation under m of p(x).",
  "all finite sequences of model-building operations, all inputs",
  "unbounded expression graphs",
  ["stheno/model/measure.py: Measure._update and callers", "stheno/mo/mean.py: MultiOutputMean", "stheno/model/observations.py: posterior_mean"])
p("Symmetry of the joint covariance",
  "`m.kernels[p, q](x, y)` is the transpose of `m.kernels[q, p](y, x)` for all processes of a measure.",
  "all models, all pairs of processes, all inputs, both creation orders",
  "all graphs, and both the left and right rule of each construction",
  ["stheno/model/measure.py: Measure._update (right rule), Measure.__call__", "stheno/lazy.py: LazyMatrix._build"])
p("Joint covariance is positive semi-definite",
  "For every finite collection of finite-dimensional distributions under one measure, the joint covariance matrix assembled from the measure's kernels is positive semi-definite whenever the kernels of the independent GPs are.",
  "all models, all finite collections of processes and inputs",
  "universal over models and coefficient vectors",
  ["stheno/model/measure.py: Measure", "stheno/mo/kernel.py: MultiOutputKernel", "stheno/model/observations.py: combine"])
p("Model reads are observationally pure",
  "Reading means/kernels, constructing FDDs, computing logpdfs and sampling never changes what any later read of an existing process returns; the numbers a query returns do not depend on which other queries were made before or after which model extensions.",
  "all interleavings of model-building operations and queries",
  "the number of interleavings is exponential",
  ["stheno/lazy.py: LazyTensor._get", "stheno/model/measure.py: Measure.__call__, Measure.logpdf, Measure.sample"])
p("Extending a model never changes existing processes",
  "No operation (arithmetic on GPs, new GPs, conditioning, cross, naming, entering contexts) changes the mean or the covariances of existing processes under existing measures.",
  "all reachable states, all operations, all old pairs of processes and inputs",
  "frame property over all operations and states",
  ["stheno/model/measure.py: Measure._update, add_independent_gp, condition"])
p("Every covariance of a measure is available",
  "For any two processes of a measure, reading their cross-covariance terminates and does not raise, whatever the order in which processes were created and whatever was read before.",
  "all reachable models, all pairs of processes",
  "termination and totality of mutually recursive lazy rules over unbounded graphs",
  ["stheno/lazy.py: LazyMatrix._build", "stheno/model/measure.py: Measure._update, add_independent_gp, condition"])
p("Separately constructed GPs are independent",
  "A GP constructed with a mean and kernel has zero covariance with every process that already exists in the measure, and with everything later built only from those.",
  "all models, all processes not derived from the new one",
  "unbounded graphs",
  ["stheno/model/measure.py: Measure.add_independent_gp", "stheno/model/gp.py: GP.__init__"])
p("Derived processes live in the right measures",
  "A process derived from one process belongs to exactly the measures of that process; a process derived from several belongs to exactly the measures common to all; each of those measures lists the new process once and no other measure changes.",
  "all reachable states, all operations, all iteration orders of the set of measures",
  "set iteration order is unspecified; histories unbounded",
  ["stheno/model/gp.py: intersection_measure_group, GP.__add__, GP.__mul__, GP.shift, cross", "stheno/model/measure.py: Measure._add_p"])
p("The home measure of a derived process is that of its operands",
  "`(f + g).measure`, `(f * g).measure` and `cross(f, g).measure` are `f.measure`.",
  "all reachable states, all iteration orders of the set of common measures",
  "depends on set iteration order of objects hashed by address",
  ["stheno/model/gp.py: intersection_measure_group, GP.__add__, GP.measure"])
p("Mixing measures is rejected",
  "Adding, multiplying or crossing processes whose home measures differ raises an AssertionError and leaves every measure unchanged.",
  "all reachable states, all pairs with different home measures",
  "all states; error path leaves no partial updates",
  ["stheno/model/gp.py: assert_same_measure, intersection_measure_group"])
p("Process arithmetic is linear",
  "Under every measure, expressions that denote the same linear combination of processes are perfectly correlated and have the same mean: f+g vs g+f, (f+g)-g vs f, 2*f vs f+f, a*(f+g) vs a*f+a*g, -f vs 0-f, f-f vs 0; i.e. the difference has zero variance.",
  "all models, processes, coefficients and inputs",
  "universally quantified algebraic law on the joint distribution",
  ["stheno/random.py: Random.__neg__, __sub__, __rsub__, __div__, __radd__, __rmul__", "stheno/model/measure.py: Measure.sum, Measure.mul"])
p("Input transformations act on sample paths",
  "f.shift(c) at x+c, f.stretch(s) at s*x (s nonzero), f.select(d) at any x with x[d]=z and f.transform(h) at any x with h(x)=z are the same random variables as f at x (resp. z): same mean and perfectly correlated, under every measure of f.",
  "all models, shifts, stretches, dimension selections, functions and inputs",
  "all functions and graphs",
  ["stheno/model/measure.py: Measure.shift, stretch, select, transform"])
p("Product of GPs: second moments are matched",
  "The covariance function of p1*p2 equals the exact covariance of the product of jointly Gaussian processes, also when p1 and p2 are correlated or identical.",
  "all models, all pairs of processes, all inputs",
  "quantifies over all means and kernels",
  ["stheno/model/measure.py: Measure.mul(p_mul: GP, p1: GP, p2: GP)"])
p("Product of GPs: first moment is matched",
  "The mean function of p1*p2 equals the exact expectation of the product (README: `approximates the resulting process by moment matching`).",
  "all models, all pairs of processes including correlated ones",
  "quantifies over all models",
  ["stheno/model/measure.py: Measure.mul(p_mul: GP, p1: GP, p2: GP)", "README.md"])
p("add_gp uses both user rules",
  "A process added with `Measure.add_gp(mean, kernel, left_rule, right_rule)` has cross-covariances given by left_rule when it is the left argument and by right_rule (if supplied) when it is the right argument; without a right rule the transpose of the left rule is used.",
  "all measures, all rules",
  "all user-supplied functions",
  ["stheno/model/measure.py: Measure.add_gp, Measure._update"])
p("diff_approx is the finite-difference functional",
  "`f.diff_approx` is exactly the linear functional sum_k c_k f(x + g_k h) / h^d of the process for the grid g, coefficients c and step h of the finite-difference method: same mean and perfectly correlated with it.",
  "all processes, grids, coefficients, steps, derivative orders and inputs",
  "grid size is unbounded",
  ["stheno/model/gp.py: GP.diff_approx"])
p("Re-homing a process preserves its law",
  "`m(p)` is a new process that, under m, has the same mean as p and is perfectly correlated with it, in both index orders; `m(fdd)` is the FDD of that process with the same inputs and noise.",
  "all measures, processes, other processes, inputs",
  "all models and both index orders",
  ["stheno/model/measure.py: Measure.__call__"])
# --- Conditioning --------------------------------------------------------
p("Conditioning computes the Gaussian conditional",
  "Under `m | (f(x, noise), y)` the mean of any process p at x* is E[p(x*)] + Cov(p(x*),Y) Var(Y)^-1 (y - E[Y]) and covariances are Cov(p,q) - Cov(p,Y) Var(Y)^-1 Cov(Y,q), with Y = f(x)+noise: the residual is uncorrelated with the data.",
  "all models, observed processes (including combined ones), inputs, noise, data, queried processes",
  "all models and sizes",
  ["stheno/model/measure.py: Measure.condition", "stheno/model/observations.py: Observations"])
p("Sequential conditioning equals joint conditioning",
  "Conditioning on data set 1 and then on data set 2 gives the same means and covariances for all processes as conditioning on both at once.",
  "all models, pairs of data sets, noise matrices, queried processes and inputs",
  "all sizes and all models",
  ["stheno/model/measure.py: Measure.condition", "stheno/model/observations.py: Observations, combine"])
p("Conditioning is invariant to the order of observations",
  "Permuting the (fdd, y) pairs, or permuting the rows of one observation together with inputs and noise, does not change the posterior or the logpdf.",
  "all permutations, all data sets and sizes",
  "factorially many permutations",
  ["stheno/model/observations.py: combine, Observations"])
p("Noiseless observations are interpolated",
  "When the observed values have an invertible prior covariance and no noise, the posterior mean of the observed process at the observed inputs equals the observed values and the posterior variance there is zero.",
  "all models, inputs and data",
  "all sizes",
  ["stheno/model/observations.py: Observations.posterior_mean, Observations.posterior_kernel"])
p("Conditioning never increases variance",
  "For every finite collection of query points, prior covariance minus posterior covariance is positive semi-definite; in particular marginal variances do not increase.",
  "all models, observations and query points",
  "matrix inequality over all vectors",
  ["stheno/model/observations.py: Observations.posterior_kernel"])
p("Empty observations are a no-op",
  "Conditioning on zero observations leaves every mean and kernel exactly that of the prior.",
  "all models and processes",
  "all models",
  ["stheno/model/observations.py: Observations.posterior_kernel, Observations.posterior_mean"])
p("Missing observations are ignored",
  "Observing y with NaN entries gives the same posterior (and logpdf) as observing only the non-NaN entries at the corresponding inputs with the corresponding block of the noise, for single and for combined observations.",
  "all inputs (including nested tuples and multi-output inputs), all masks, all noise matrices",
  "2^n masks and arbitrarily nested inputs",
  ["stheno/model/observations.py: AbstractObservations.__init__", "stheno/model/fdd.py: take, _take_x", "stheno/mo/kernel.py: _take_x"])
p("Observation noise is an independent noise process",
  "Conditioning on f(x, noise) gives the same posterior for f as conditioning on (f+e)(x) for an independent process e whose covariance at x is the noise matrix.",
  "all models, inputs, noise",
  "all models",
  ["stheno/model/fdd.py: FDD", "stheno/model/observations.py: Observations.K_x"])
p("Posterior scope",
  "A posterior knows exactly the processes its prior had when it was created: processes created under the prior later are not available under it, and conditioning changes nothing under the prior.",
  "all histories of extensions before and after conditioning",
  "all histories",
  ["stheno/model/measure.py: Measure.condition"])
# --- FDD / Normal --------------------------------------------------------
p("Noise argument of an FDD",
  "f(x, noise) has mean that of f(x) and variance that of f(x) plus: nothing for None, noise times the identity for a scalar, diag(noise) for a vector, noise for a matrix.",
  "all processes, inputs, noise arguments",
  "all sizes and shapes",
  ["stheno/model/fdd.py: _noise_as_matrix, FDD.__init__"])
p("Lazy distribution accessors agree in every order",
  "mean, var, var_diag, mean_var and marginals() of a distribution return mutually consistent values (mean_var = (mean, var), var_diag = diag(var), marginals = (mean, diag(var))) irrespective of the order and number of accesses.",
  "all distributions, all sequences of accesses",
  "unbounded access histories over internal caches",
  ["stheno/random.py: Normal._resolve_mean, _resolve_var, _resolve_var_diag, mean, var, var_diag, mean_var, marginals, mean_is_zero", "stheno/model/fdd.py: FDD.__init__"])
p("Marginals and credible bounds",
  "marginals() returns non-negative variances equal to the variance diagonal whenever that is non-negative, and marginal_credible_bounds() satisfies lower <= mean <= upper with half-width 1.96 standard deviations.",
  "all distributions",
  "all sizes and values",
  ["stheno/random.py: Normal.marginals, Normal.marginal_credible_bounds"])
p("logpdf is the multivariate normal log-density",
  "For every column of x, logpdf returns -1/2 (log det Var + n log 2 pi + (x-mean)^T Var^-1 (x-mean)); a single-column x gives a scalar.",
  "all dimensions, means, positive-definite variances, numbers of columns",
  "all sizes",
  ["stheno/random.py: Normal.logpdf"])
p("logpdf marginalises missing data",
  "logpdf of a single vector with NaN entries is the logpdf of the marginal distribution of the non-missing entries.",
  "all dimensions and all masks",
  "2^n masks",
  ["stheno/random.py: Normal.logpdf"])
p("Chain rule of the log-density",
  "m.logpdf((f1(x1), y1), (f2(x2), y2)) = m.logpdf(f1(x1), y1) + (m | (f1(x1), y1)).logpdf(f2(x2), y2).",
  "all models, observations and sizes",
  "all sizes, and by induction all numbers of pairs",
  ["stheno/model/measure.py: Measure.logpdf, Measure.condition", "stheno/random.py: Normal.logpdf"])
p("Entropy and KL divergence",
  "kl(p, q) is non-negative for all normals with positive-definite variances, is zero if and only if the means and variances coincide; entropy is 1/2 log det(2 pi e Var).",
  "all dimensions, means, positive-definite variances",
  "inequality over all positive-definite matrices",
  ["stheno/random.py: Normal.entropy, Normal.kl"])
p("2-Wasserstein distance",
  "w2 is non-negative, symmetric, zero for identical distributions and reduces to the Euclidean distance of the means for equal variances.",
  "all dimensions, means, positive semi-definite variances",
  "all matrices; involves matrix square roots",
  ["stheno/random.py: Normal.w2"])
p("Arithmetic on normals is the push-forward",
  "lmatmul/rmatmul/scalar multiplication/addition/negation/subtraction/division of Normals give the mean and variance of the corresponding affine function of independent normal vectors.",
  "all dimensions, distributions, matrices, scalars, and all expressions built from them",
  "all expressions and sizes",
  ["stheno/random.py: Random, Normal.__add__, __mul__, lmatmul, rmatmul"])
p("Sampling has the right first two moments",
  "Normal.sample(num, noise) returns num columns that are an affine function of fresh standard normal noise with mean `mean` and covariance `var + noise*I`; skipping the addition of an identically zero mean does not change the result; the global random state is advanced exactly once per call.",
  "all distributions, numbers of samples, noise levels, random states",
  "distributional statement",
  ["stheno/random.py: Normal.sample", "stheno/model/measure.py: Measure.sample"])
p("Joint sampling returns each process's own block",
  "m.sample(fdd1, ..., fddk) returns k arrays, the i-th having exactly the rows of the joint sample that belong to fdd_i.",
  "all numbers and kinds of FDDs, including multi-output ones, all sizes",
  "unbounded numbers of FDDs and sizes",
  ["stheno/model/measure.py: Measure.sample", "stheno/model/fdd.py: num_elements"])
# --- Multi-output --------------------------------------------------------
p("Cartesian products stack their components",
  "cross(f1,...,fk) at inputs x is the concatenation of f1(x),...,fk(x); at f_i(x) it is f_i(x); at a tuple of inputs it is the concatenation; means concatenate and covariances form the corresponding block matrix.",
  "all processes, all (arbitrarily nested) inputs",
  "unbounded nesting",
  ["stheno/mo/kernel.py: pairwise", "stheno/mo/input.py: pairwise", "stheno/mo/mean.py: MultiOutputMean.__call__", "stheno/model/measure.py: Measure.cross"])
p("Inferred size is the real size",
  "infer_size(kernel, x) equals the number of rows of the covariance matrix kernel(x).",
  "all processes (including products of products, scaled and posterior multi-output processes), all nested inputs",
  "unbounded nesting of kernels and inputs",
  ["stheno/mo/infer.py: infer_size, dimensionality, _check_and_merge", "stheno/mo/kernel.py: dimensionality", "stheno/mo/adk.py: dimensionality"])
p("elwise is the diagonal of pairwise",
  "kernel.elwise(x, y) equals the diagonal of kernel(x, y) whenever both are defined, so that var_diag and marginals agree with var.",
  "all kernels arising in a measure, all inputs",
  "all kernel expressions and nested inputs",
  ["stheno/mo/kernel.py: elwise", "stheno/mo/input.py: elwise", "stheno/mo/adk.py: elwise", "stheno/model/fdd.py: FDD.__init__"])
p("Taking a mask of an FDD marginalises it",
  "B.take(fdd, mask) is the FDD of the same process whose mean, variance and noise are the masked mean, variance and noise of fdd.",
  "all FDDs with arbitrarily nested inputs, all masks",
  "2^n masks and unbounded nesting",
  ["stheno/model/fdd.py: take, _take_x", "stheno/mo/kernel.py: _take_x"])
p("Processes may be created in any order relative to cross",
  "The cross-covariance of an independently constructed GP with a multi-output process has the right shape regardless of whether the GP was constructed before or after the multi-output process.",
  "all models, both creation orders, all inputs",
  "all creation orders",
  ["stheno/model/measure.py: Measure.add_independent_gp, Measure.cross, Measure.mul", "stheno/mo/kernel.py: pairwise"])
p("Combining FDDs is joint",
  "combine(fdd1,...,fddk) has the concatenated means, the joint covariance of the processes under the home measure, and block-diagonal noise; combine of pairs also concatenates the values in the same order.",
  "all numbers of FDDs, all processes, all inputs",
  "unbounded numbers",
  ["stheno/model/observations.py: combine"])
# --- Inducing points -----------------------------------------------------
p("Pseudo-point approximations have their textbook closed form",
  "For diagonal noise D the approximate posterior of VFE and DTC is the exact posterior formula with Q = K_xz K_z^-1 K_zx + D in place of K_x + D, FITC additionally replaces D by D + diag(K_x - Q): mean, covariance (with K_z - cross terms) and the elbo agree with those closed forms for every Cholesky factor of K_z.",
  "all models, inducing inputs, data, noise, sizes",
  "matrix identities over all sizes",
  ["stheno/model/observations.py: AbstractPseudoObservations._compute, posterior_kernel, posterior_mean"])
p("Inducing points at the data recover exact inference",
  "When the inducing variables are the noiseless observed process at the observed inputs, all three approximations give the exact posterior and the exact logpdf.",
  "all models, data, noise and sizes",
  "matrix identities over all sizes",
  ["stheno/model/observations.py: AbstractPseudoObservations._compute"])
p("The VFE ELBO is a lower bound",
  "PseudoObs(u, f(x, noise), y).elbo(m) <= m.logpdf(f(x, noise), y).",
  "all models, inducing points, data, positive diagonal noise",
  "inequality over all positive-definite matrices",
  ["stheno/model/observations.py: AbstractPseudoObservations._compute (vfe)"])
p("Observation caches are per measure and transparent",
  "K_x, K_z, elbo, mu and A return the value computed for the measure passed in, no matter in which order and for which other measures they were requested before.",
  "all observations, all measures, all request sequences",
  "unbounded request histories",
  ["stheno/model/observations.py: Observations.K_x, AbstractPseudoObservations.K_z, elbo, mu, A, _compute"])
p("Non-diagonal noise is rejected by pseudo-points",
  "A pseudo-point approximation with an observation noise that is not represented as a diagonal matrix raises, for every accessor, and never returns numbers.",
  "all observations, all accessor sequences",
  "all request histories after failure",
  ["stheno/model/observations.py: AbstractPseudoObservations._compute"])

p("diagonalise keeps the marginals and drops the correlations",
  "Normal.diagonalise gives the distribution with the same marginals and no correlations: its logpdf is the sum of the logpdfs of the marginals, and no distribution without correlations is closer in Kullback-Leibler divergence.",
  "all normals, all points",
  "all sizes and all matrices; a minimum over all distributions without correlations",
  ["stheno/random.py: Normal.diagonalise"])
p("Every mean and covariance can be evaluated",
  "In every measure, the kernel of every pair of processes and the mean of every process can be evaluated at all inputs at which the processes have values (points, FDDs and tuples of them, non-empty), and the result has one row (and column) per value.",
  "all finite sequences of model-building operations, all inputs of all sizes",
  "the expression graph is unbounded; whether an evaluation raises depends on the order in which the processes were built",
  ["stheno/model/measure.py: Measure.sum, mul, shift, stretch, select, transform, diff, cross, condition", "stheno/mo/kernel.py: pairwise", "stheno/mo/mean.py: MultiOutputMean.__call__"])
p("Conditioning a process is conditioning its measure",
  "p | obs returns a new process in a new measure. That measure is the posterior p.measure | obs. In it the process has the mean of p and the covariances of p with all processes of the prior. The prior, its processes and all names stay as they are.",
  "all programs over the API, all observations",
  "all states that programs reach",
  ["stheno/model/gp.py: GP.condition, GP.__or__", "stheno/model/measure.py: Measure.condition, Measure.__call__"])

p("FDDs can be constructed",
  "For every process p and every input x at which the covariance of p evaluates, the size of p(x) can be inferred, so that p(x) can be constructed.",
  "all programs, all processes, also of posteriors, all inputs",
  "all ways to build processes and to condition, and all inputs",
  ["stheno/mo/infer.py: infer_size, dimensionality, _check_and_merge", "stheno/model/fdd.py: FDD.__init__"])
p("Processes that say they are stationary are",
  "If p.stationary is true, then the covariance of p between any two arrays of points does not change when all points are translated by the same vector; in particular the variance is constant. Copying, shifting, stretching, selecting dimensions, scaling and adding constants or functions keep the attribute; sums of uncorrelated stationary processes have it; no process has it under a posterior with data.",
  "all sequences of model-building operations, all processes, all inputs and translations",
  "all ways to build processes and all inputs",
  ["stheno/model/gp.py: GP.stationary", "stheno/mo/adk.py: AmbiguousDimensionalityKernel._stationary"])

out = os.path.join(os.path.dirname(os.path.dirname(os.path.abspath(__file__))), "properties.jsonl")
with open(out, "w") as f:
    for i, d in enumerate(P, 1):
        f.write(json.dumps(dict(id=f"C{i:02d}", **d)) + "\n")
print(len(P))
for i, d in enumerate(P, 1): print(f"C{i:02d}", d["title"])
