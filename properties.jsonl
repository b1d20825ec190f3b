{"id": "C01", "title": "Lazy containers: a read value never silently changes", "statement": "Once `v[i]` (LazyVector) or `k[i, j]` (LazyMatrix) has been read successfully, every later read of that index returns the same value, whatever rules are added, other indices are set or other indices are read in between; only an explicit assignment to that very index changes it.", "quantifier": "all values, all rules, all finite histories of set/get/add_rule/add_left_rule/add_right_rule operations", "why_tests_cant": "a test fixes one history of rule additions and reads; the claim is about every interleaving", "anchors": ["stheno/lazy.py: LazyTensor._get, LazyTensor._set, LazyVector._build, LazyMatrix._build"]}
{"id": "C02", "title": "Lazy containers: rule precedence and failure", "statement": "The first read of an index that was never assigned uses, in this order: the first-added universal rule whose domain contains both indices, the first-added left rule with that left index whose domain contains the right index, the first-added right rule with that right index whose domain contains the left index; if no rule covers the index the read raises and leaves the container unchanged.", "quantifier": "all sets of rules, all domains, all indices, all histories", "why_tests_cant": "finite tests check a few overlapping rules, not every rule list", "anchors": ["stheno/lazy.py: LazyVector._build, LazyMatrix._build, LazyTensor._get"]}
{"id": "C03", "title": "Lazy containers: rule domains are snapshots", "statement": "The domain of a rule is the content of the index set at the time the rule is added; later mutation of the caller's set does not add or remove indices the rule covers.", "quantifier": "all index sets, all later mutations of the set, all subsequent reads", "why_tests_cant": "a test mutates one set once", "anchors": ["stheno/lazy.py: LazyVector.add_rule, LazyMatrix.add_rule, LazyMatrix.add_left_rule, LazyMatrix.add_right_rule"]}
{"id": "C04", "title": "Lazy containers: reads are order independent", "statement": "When builders are pure, the values returned for a set of reads do not depend on the order in which (or how often) the reads are made, and reading is idempotent.", "quantifier": "all rule sets with pure builders, all read sequences", "why_tests_cant": "exponentially many read orders", "anchors": ["stheno/lazy.py: LazyTensor._get"]}
{"id": "C05", "title": "Lazy matrix: diagonal shorthand and identity indexing", "statement": "`k[p]` is `k[p, p]` for reads and writes; an object indexes by its identity, so `k[p]`, `k[id(p)]` and `k[p, id(p)]` are the same element and equal-but-distinct objects are different elements.", "quantifier": "all containers, all keys (objects or integer ids), all histories", "why_tests_cant": "tests use a couple of keys", "anchors": ["stheno/lazy.py: _resolve_index, LazyTensor._expand_key, LazyTensor.__getitem__, LazyTensor.__setitem__"]}
{"id": "C06", "title": "Names form a two-way dictionary", "statement": "In every measure and after every history of naming calls, successful or failing, `m[name] is p` if and only if `m[p] == name`; no two processes share a name and no process has two names.", "quantifier": "all measures, processes, names and all finite histories of naming calls, including ones that raised", "why_tests_cant": "invariant over unbounded histories with failures in between", "anchors": ["stheno/model/measure.py: Measure.name, Measure.__getitem__"]}
{"id": "C07", "title": "Naming: effect and frame of a naming call", "statement": "Naming p with a name not used by another process succeeds, makes exactly that name refer to p, frees p's previous name, and leaves all other processes' names alone; naming p with a name held by another process raises and leaves all other processes' names alone.", "quantifier": "all reachable naming states, all processes and names", "why_tests_cant": "frame conditions over all states", "anchors": ["stheno/model/measure.py: Measure.name", "stheno/model/gp.py: GP.name"]}
{"id": "C08", "title": "A rejected naming call does not lose information", "statement": "If naming a process raises because the name is taken, the process keeps the name it had before (and, when the process belongs to several measures, either all or none of them are renamed).", "quantifier": "all reachable naming states with the target name held by another process", "why_tests_cant": "needs the state after an exception for every possible prior state", "anchors": ["stheno/model/measure.py: Measure.name", "stheno/model/gp.py: GP.name setter"]}
{"id": "C09", "title": "Measure contexts nest", "statement": "Inside `with m:` a GP constructed without a measure belongs to the innermost entered measure; leaving the block restores the default that was in force before it was entered, also when the body raises; outside all blocks a new GP gets a brand-new measure.", "quantifier": "all properly nested sequences of with-blocks, of any depth, over any measures, with arbitrary bodies", "why_tests_cant": "nesting depth and the choice of measures are unbounded", "anchors": ["stheno/model/measure.py: Measure.__enter__, Measure.__exit__", "stheno/model/gp.py: GP.__init__"]}
{"id": "C10", "title": "A measure is a joint distribution: kernels are exact covariances", "statement": "For every model built through the public API, `m.kernels[p, q](x, y)` is the covariance matrix, under m, of the random variables p(x) and q(y), where a process is determined by its defining equation ((f+g)(x)=f(x)+g(x), (c f)(x)=c f(x), (h f)(x)=h(x) f(x), f.shift(c)(x)=f(x-c), f.stretch(s)(x)=f(x/s), f.select(d)(x)=f(x[d]), f.transform(h)(x)=f(h(x)), f.diff=derivative, cross(f,g)=(f,g), post(f)=f given the data) and independently constructed GPs are independent with their given kernels.", "quantifier": "all finite sequences of model-building operations over any number of processes and measures, all inputs of all sizes", "why_tests_cant": "the expression graph is unbounded; tests check a handful of compositions on a handful of inputs", "anchors": ["stheno/model/measure.py: Measure._update, add_independent_gp, sum, mul, shift, stretch, select, transform, diff, cross, condition, __call__", "stheno/lazy.py: LazyMatrix", "stheno/model/gp.py: GP"]}
{"id": "C11", "title": "A measure is a joint distribution: means are exact expectations", "statement": "For every model built through the public API, `m.means[p](x)` is the expectation under m of p(x).", "quantifier": "all finite sequences of model-building operations, all inputs", "why_tests_cant": "unbounded expression graphs", "anchors": ["stheno/model/measure.py: Measure._update and callers", "stheno/mo/mean.py: MultiOutputMean", "stheno/model/observations.py: posterior_mean"]}
{"id": "C12", "title": "Symmetry of the joint covariance", "statement": "`m.kernels[p, q](x, y)` is the transpose of `m.kernels[q, p](y, x)` for all processes of a measure.", "quantifier": "all models, all pairs of processes, all inputs, both creation orders", "why_tests_cant": "all graphs, and both the left and right rule of each construction", "anchors": ["stheno/model/measure.py: Measure._update (right rule), Measure.__call__", "stheno/lazy.py: LazyMatrix._build"]}
{"id": "C13", "title": "Joint covariance is positive semi-definite", "statement": "For every finite collection of finite-dimensional distributions under one measure, the joint covariance matrix assembled from the measure's kernels is positive semi-definite whenever the kernels of the independent GPs are.", "quantifier": "all models, all finite collections of processes and inputs", "why_tests_cant": "universal over models and coefficient vectors", "anchors": ["stheno/model/measure.py: Measure", "stheno/mo/kernel.py: MultiOutputKernel", "stheno/model/observations.py: combine"]}
{"id": "C14", "title": "Model reads are observationally pure", "statement": "Reading means/kernels, constructing FDDs, computing logpdfs and sampling never changes what any later read of an existing process returns; the numbers a query returns do not depend on which other queries were made before or after which model extensions.", "quantifier": "all interleavings of model-building operations and queries", "why_tests_cant": "the number of interleavings is exponential", "anchors": ["stheno/lazy.py: LazyTensor._get", "stheno/model/measure.py: Measure.__call__, Measure.logpdf, Measure.sample"]}
{"id": "C15", "title": "Extending a model never changes existing processes", "statement": "No operation (arithmetic on GPs, new GPs, conditioning, cross, naming, entering contexts) changes the mean or the covariances of existing processes under existing measures.", "quantifier": "all reachable states, all operations, all old pairs of processes and inputs", "why_tests_cant": "frame property over all operations and states", "anchors": ["stheno/model/measure.py: Measure._update, add_independent_gp, condition"]}
{"id": "C16", "title": "Every covariance of a measure is available", "statement": "For any two processes of a measure, reading their cross-covariance terminates and does not raise, whatever the order in which processes were created and whatever was read before.", "quantifier": "all reachable models, all pairs of processes", "why_tests_cant": "termination and totality of mutually recursive lazy rules over unbounded graphs", "anchors": ["stheno/lazy.py: LazyMatrix._build", "stheno/model/measure.py: Measure._update, add_independent_gp, condition"]}
{"id": "C17", "title": "Separately constructed GPs are independent", "statement": "A GP constructed with a mean and kernel has zero covariance with every process that already exists in the measure, and with everything later built only from those.", "quantifier": "all models, all processes not derived from the new one", "why_tests_cant": "unbounded graphs", "anchors": ["stheno/model/measure.py: Measure.add_independent_gp", "stheno/model/gp.py: GP.__init__"]}
{"id": "C18", "title": "Derived processes live in the right measures", "statement": "A process derived from one process belongs to exactly the measures of that process; a process derived from several belongs to exactly the measures common to all; each of those measures lists the new process once and no other measure changes.", "quantifier": "all reachable states, all operations, all iteration orders of the set of measures", "why_tests_cant": "set iteration order is unspecified; histories unbounded", "anchors": ["stheno/model/gp.py: intersection_measure_group, GP.__add__, GP.__mul__, GP.shift, cross", "stheno/model/measure.py: Measure._add_p"]}
{"id": "C19", "title": "The home measure of a derived process is that of its operands", "statement": "`(f + g).measure`, `(f * g).measure` and `cross(f, g).measure` are `f.measure`.", "quantifier": "all reachable states, all iteration orders of the set of common measures", "why_tests_cant": "depends on set iteration order of objects hashed by address", "anchors": ["stheno/model/gp.py: intersection_measure_group, GP.__add__, GP.measure"]}
{"id": "C20", "title": "Mixing measures is rejected", "statement": "Adding, multiplying or crossing processes whose home measures differ raises an AssertionError and leaves every measure unchanged.", "quantifier": "all reachable states, all pairs with different home measures", "why_tests_cant": "all states; error path leaves no partial updates", "anchors": ["stheno/model/gp.py: assert_same_measure, intersection_measure_group"]}
{"id": "C21", "title": "Process arithmetic is linear", "statement": "Under every measure, expressions that denote the same linear combination of processes are perfectly correlated and have the same mean: f+g vs g+f, (f+g)-g vs f, 2*f vs f+f, a*(f+g) vs a*f+a*g, -f vs 0-f, f-f vs 0; i.e. the difference has zero variance.", "quantifier": "all models, processes, coefficients and inputs", "why_tests_cant": "universally quantified algebraic law on the joint distribution", "anchors": ["stheno/random.py: Random.__neg__, __sub__, __rsub__, __div__, __radd__, __rmul__", "stheno/model/measure.py: Measure.sum, Measure.mul"]}
{"id": "C22", "title": "Input transformations act on sample paths", "statement": "f.shift(c) at x+c, f.stretch(s) at s*x (s nonzero), f.select(d) at any x with x[d]=z and f.transform(h) at any x with h(x)=z are the same random variables as f at x (resp. z): same mean and perfectly correlated, under every measure of f.", "quantifier": "all models, shifts, stretches, dimension selections, functions and inputs", "why_tests_cant": "all functions and graphs", "anchors": ["stheno/model/measure.py: Measure.shift, stretch, select, transform"]}
{"id": "C23", "title": "Product of GPs: second moments are matched", "statement": "The covariance function of p1*p2 equals the exact covariance of the product of jointly Gaussian processes, also when p1 and p2 are correlated or identical.", "quantifier": "all models, all pairs of processes, all inputs", "why_tests_cant": "quantifies over all means and kernels", "anchors": ["stheno/model/measure.py: Measure.mul(p_mul: GP, p1: GP, p2: GP)"]}
{"id": "C24", "title": "Product of GPs: first moment is matched", "statement": "The mean function of p1*p2 equals the exact expectation of the product (README: `approximates the resulting process by moment matching`).", "quantifier": "all models, all pairs of processes including correlated ones", "why_tests_cant": "quantifies over all models", "anchors": ["stheno/model/measure.py: Measure.mul(p_mul: GP, p1: GP, p2: GP)", "README.md"]}
{"id": "C25", "title": "add_gp uses both user rules", "statement": "A process added with `Measure.add_gp(mean, kernel, left_rule, right_rule)` has cross-covariances given by left_rule when it is the left argument and by right_rule (if supplied) when it is the right argument; without a right rule the transpose of the left rule is used.", "quantifier": "all measures, all rules", "why_tests_cant": "all user-supplied functions", "anchors": ["stheno/model/measure.py: Measure.add_gp, Measure._update"]}
{"id": "C26", "title": "diff_approx is the finite-difference functional", "statement": "`f.diff_approx` is exactly the linear functional sum_k c_k f(x + g_k h) / h^d of the process for the grid g, coefficients c and step h of the finite-difference method: same mean and perfectly correlated with it.", "quantifier": "all processes, grids, coefficients, steps, derivative orders and inputs", "why_tests_cant": "grid size is unbounded", "anchors": ["stheno/model/gp.py: GP.diff_approx"]}
{"id": "C27", "title": "Re-homing a process preserves its law", "statement": "`m(p)` is a new process that, under m, has the same mean as p and is perfectly correlated with it, in both index orders; `m(fdd)` is the FDD of that process with the same inputs and noise.", "quantifier": "all measures, processes, other processes, inputs", "why_tests_cant": "all models and both index orders", "anchors": ["stheno/model/measure.py: Measure.__call__"]}
{"id": "C28", "title": "Conditioning computes the Gaussian conditional", "statement": "Under `m | (f(x, noise), y)` the mean of any process p at x* is E[p(x*)] + Cov(p(x*),Y) Var(Y)^-1 (y - E[Y]) and covariances are Cov(p,q) - Cov(p,Y) Var(Y)^-1 Cov(Y,q), with Y = f(x)+noise: the residual is uncorrelated with the data.", "quantifier": "all models, observed processes (including combined ones), inputs, noise, data, queried processes", "why_tests_cant": "all models and sizes", "anchors": ["stheno/model/measure.py: Measure.condition", "stheno/model/observations.py: Observations"]}
{"id": "C29", "title": "Sequential conditioning equals joint conditioning", "statement": "Conditioning on data set 1 and then on data set 2 gives the same means and covariances for all processes as conditioning on both at once.", "quantifier": "all models, pairs of data sets, noise matrices, queried processes and inputs", "why_tests_cant": "all sizes and all models", "anchors": ["stheno/model/measure.py: Measure.condition", "stheno/model/observations.py: Observations, combine"]}
{"id": "C30", "title": "Conditioning is invariant to the order of observations", "statement": "Permuting the (fdd, y) pairs, or permuting the rows of one observation together with inputs and noise, does not change the posterior or the logpdf.", "quantifier": "all permutations, all data sets and sizes", "why_tests_cant": "factorially many permutations", "anchors": ["stheno/model/observations.py: combine, Observations"]}
{"id": "C31", "title": "Noiseless observations are interpolated", "statement": "When the observed values have an invertible prior covariance and no noise, the posterior mean of the observed process at the observed inputs equals the observed values and the posterior variance there is zero.", "quantifier": "all models, inputs and data", "why_tests_cant": "all sizes", "anchors": ["stheno/model/observations.py: Observations.posterior_mean, Observations.posterior_kernel"]}
{"id": "C32", "title": "Conditioning never increases variance", "statement": "For every finite collection of query points, prior covariance minus posterior covariance is positive semi-definite; in particular marginal variances do not increase.", "quantifier": "all models, observations and query points", "why_tests_cant": "matrix inequality over all vectors", "anchors": ["stheno/model/observations.py: Observations.posterior_kernel"]}
{"id": "C33", "title": "Empty observations are a no-op", "statement": "Conditioning on zero observations leaves every mean and kernel exactly that of the prior.", "quantifier": "all models and processes", "why_tests_cant": "all models", "anchors": ["stheno/model/observations.py: Observations.posterior_kernel, Observations.posterior_mean"]}
{"id": "C34", "title": "Missing observations are ignored", "statement": "Observing y with NaN entries gives the same posterior (and logpdf) as observing only the non-NaN entries at the corresponding inputs with the corresponding block of the noise, for single and for combined observations.", "quantifier": "all inputs (including nested tuples and multi-output inputs), all masks, all noise matrices", "why_tests_cant": "2^n masks and arbitrarily nested inputs", "anchors": ["stheno/model/observations.py: AbstractObservations.__init__", "stheno/model/fdd.py: take, _take_x", "stheno/mo/kernel.py: _take_x"]}
{"id": "C35", "title": "Observation noise is an independent noise process", "statement": "Conditioning on f(x, noise) gives the same posterior for f as conditioning on (f+e)(x) for an independent process e whose covariance at x is the noise matrix.", "quantifier": "all models, inputs, noise", "why_tests_cant": "all models", "anchors": ["stheno/model/fdd.py: FDD", "stheno/model/observations.py: Observations.K_x"]}
{"id": "C36", "title": "Posterior scope", "statement": "A posterior knows exactly the processes its prior had when it was created: processes created under the prior later are not available under it, and conditioning changes nothing under the prior.", "quantifier": "all histories of extensions before and after conditioning", "why_tests_cant": "all histories", "anchors": ["stheno/model/measure.py: Measure.condition"]}
{"id": "C37", "title": "Noise argument of an FDD", "statement": "f(x, noise) has mean that of f(x) and variance that of f(x) plus: nothing for None, noise times the identity for a scalar, diag(noise) for a vector, noise for a matrix.", "quantifier": "all processes, inputs, noise arguments", "why_tests_cant": "all sizes and shapes", "anchors": ["stheno/model/fdd.py: _noise_as_matrix, FDD.__init__"]}
{"id": "C38", "title": "Lazy distribution accessors agree in every order", "statement": "mean, var, var_diag, mean_var and marginals() of a distribution return mutually consistent values (mean_var = (mean, var), var_diag = diag(var), marginals = (mean, diag(var))) irrespective of the order and number of accesses.", "quantifier": "all distributions, all sequences of accesses", "why_tests_cant": "unbounded access histories over internal caches", "anchors": ["stheno/random.py: Normal._resolve_mean, _resolve_var, _resolve_var_diag, mean, var, var_diag, mean_var, marginals, mean_is_zero", "stheno/model/fdd.py: FDD.__init__"]}
{"id": "C39", "title": "Marginals and credible bounds", "statement": "marginals() returns non-negative variances equal to the variance diagonal whenever that is non-negative, and marginal_credible_bounds() satisfies lower <= mean <= upper with half-width 1.96 standard deviations.", "quantifier": "all distributions", "why_tests_cant": "all sizes and values", "anchors": ["stheno/random.py: Normal.marginals, Normal.marginal_credible_bounds"]}
{"id": "C40", "title": "logpdf is the multivariate normal log-density", "statement": "For every column of x, logpdf returns -1/2 (log det Var + n log 2 pi + (x-mean)^T Var^-1 (x-mean)); a single-column x gives a scalar.", "quantifier": "all dimensions, means, positive-definite variances, numbers of columns", "why_tests_cant": "all sizes", "anchors": ["stheno/random.py: Normal.logpdf"]}
{"id": "C41", "title": "logpdf marginalises missing data", "statement": "logpdf of a single vector with NaN entries is the logpdf of the marginal distribution of the non-missing entries.", "quantifier": "all dimensions and all masks", "why_tests_cant": "2^n masks", "anchors": ["stheno/random.py: Normal.logpdf"]}
{"id": "C42", "title": "Chain rule of the log-density", "statement": "m.logpdf((f1(x1), y1), (f2(x2), y2)) = m.logpdf(f1(x1), y1) + (m | (f1(x1), y1)).logpdf(f2(x2), y2).", "quantifier": "all models, observations and sizes", "why_tests_cant": "all sizes, and by induction all numbers of pairs", "anchors": ["stheno/model/measure.py: Measure.logpdf, Measure.condition", "stheno/random.py: Normal.logpdf"]}
{"id": "C43", "title": "Entropy and KL divergence", "statement": "kl(p, q) is non-negative for all normals with positive-definite variances, is zero if and only if the means and variances coincide; entropy is 1/2 log det(2 pi e Var).", "quantifier": "all dimensions, means, positive-definite variances", "why_tests_cant": "inequality over all positive-definite matrices", "anchors": ["stheno/random.py: Normal.entropy, Normal.kl"]}
{"id": "C44", "title": "2-Wasserstein distance", "statement": "w2 is non-negative, symmetric, zero for identical distributions and reduces to the Euclidean distance of the means for equal variances.", "quantifier": "all dimensions, means, positive semi-definite variances", "why_tests_cant": "all matrices; involves matrix square roots", "anchors": ["stheno/random.py: Normal.w2"]}
{"id": "C45", "title": "Arithmetic on normals is the push-forward", "statement": "lmatmul/rmatmul/scalar multiplication/addition/negation/subtraction/division of Normals give the mean and variance of the corresponding affine function of independent normal vectors.", "quantifier": "all dimensions, distributions, matrices, scalars, and all expressions built from them", "why_tests_cant": "all expressions and sizes", "anchors": ["stheno/random.py: Random, Normal.__add__, __mul__, lmatmul, rmatmul"]}
{"id": "C46", "title": "Sampling has the right first two moments", "statement": "Normal.sample(num, noise) returns num columns that are an affine function of fresh standard normal noise with mean `mean` and covariance `var + noise*I`; skipping the addition of an identically zero mean does not change the result; the global random state is advanced exactly once per call.", "quantifier": "all distributions, numbers of samples, noise levels, random states", "why_tests_cant": "distributional statement", "anchors": ["stheno/random.py: Normal.sample", "stheno/model/measure.py: Measure.sample"]}
{"id": "C47", "title": "Joint sampling returns each process's own block", "statement": "m.sample(fdd1, ..., fddk) returns k arrays, the i-th having exactly the rows of the joint sample that belong to fdd_i.", "quantifier": "all numbers and kinds of FDDs, including multi-output ones, all sizes", "why_tests_cant": "unbounded numbers of FDDs and sizes", "anchors": ["stheno/model/measure.py: Measure.sample", "stheno/model/fdd.py: num_elements"]}
{"id": "C48", "title": "Cartesian products stack their components", "statement": "cross(f1,...,fk) at inputs x is the concatenation of f1(x),...,fk(x); at f_i(x) it is f_i(x); at a tuple of inputs it is the concatenation; means concatenate and covariances form the corresponding block matrix.", "quantifier": "all processes, all (arbitrarily nested) inputs", "why_tests_cant": "unbounded nesting", "anchors": ["stheno/mo/kernel.py: pairwise", "stheno/mo/input.py: pairwise", "stheno/mo/mean.py: MultiOutputMean.__call__", "stheno/model/measure.py: Measure.cross"]}
{"id": "C49", "title": "Inferred size is the real size", "statement": "infer_size(kernel, x) equals the number of rows of the covariance matrix kernel(x).", "quantifier": "all processes (including products of products, scaled and posterior multi-output processes), all nested inputs", "why_tests_cant": "unbounded nesting of kernels and inputs", "anchors": ["stheno/mo/infer.py: infer_size, dimensionality, _check_and_merge", "stheno/mo/kernel.py: dimensionality", "stheno/mo/adk.py: dimensionality"]}
{"id": "C50", "title": "elwise is the diagonal of pairwise", "statement": "kernel.elwise(x, y) equals the diagonal of kernel(x, y) whenever both are defined, so that var_diag and marginals agree with var.", "quantifier": "all kernels arising in a measure, all inputs", "why_tests_cant": "all kernel expressions and nested inputs", "anchors": ["stheno/mo/kernel.py: elwise", "stheno/mo/input.py: elwise", "stheno/mo/adk.py: elwise", "stheno/model/fdd.py: FDD.__init__"]}
{"id": "C51", "title": "Taking a mask of an FDD marginalises it", "statement": "B.take(fdd, mask) is the FDD of the same process whose mean, variance and noise are the masked mean, variance and noise of fdd.", "quantifier": "all FDDs with arbitrarily nested inputs, all masks", "why_tests_cant": "2^n masks and unbounded nesting", "anchors": ["stheno/model/fdd.py: take, _take_x", "stheno/mo/kernel.py: _take_x"]}
{"id": "C52", "title": "Processes may be created in any order relative to cross", "statement": "The cross-covariance of an independently constructed GP with a multi-output process has the right shape regardless of whether the GP was constructed before or after the multi-output process.", "quantifier": "all models, both creation orders, all inputs", "why_tests_cant": "all creation orders", "anchors": ["stheno/model/measure.py: Measure.add_independent_gp, Measure.cross, Measure.mul", "stheno/mo/kernel.py: pairwise"]}
{"id": "C53", "title": "Combining FDDs is joint", "statement": "combine(fdd1,...,fddk) has the concatenated means, the joint covariance of the processes under the home measure, and block-diagonal noise; combine of pairs also concatenates the values in the same order.", "quantifier": "all numbers of FDDs, all processes, all inputs", "why_tests_cant": "unbounded numbers", "anchors": ["stheno/model/observations.py: combine"]}
{"id": "C54", "title": "Pseudo-point approximations have their textbook closed form", "statement": "For diagonal noise D the approximate posterior of VFE and DTC is the exact posterior formula with Q = K_xz K_z^-1 K_zx + D in place of K_x + D, FITC additionally replaces D by D + diag(K_x - Q): mean, covariance (with K_z - cross terms) and the elbo agree with those closed forms for every Cholesky factor of K_z.", "quantifier": "all models, inducing inputs, data, noise, sizes", "why_tests_cant": "matrix identities over all sizes", "anchors": ["stheno/model/observations.py: AbstractPseudoObservations._compute, posterior_kernel, posterior_mean"]}
{"id": "C55", "title": "Inducing points at the data recover exact inference", "statement": "When the inducing variables are the noiseless observed process at the observed inputs, all three approximations give the exact posterior and the exact logpdf.", "quantifier": "all models, data, noise and sizes", "why_tests_cant": "matrix identities over all sizes", "anchors": ["stheno/model/observations.py: AbstractPseudoObservations._compute"]}
{"id": "C56", "title": "The VFE ELBO is a lower bound", "statement": "PseudoObs(u, f(x, noise), y).elbo(m) <= m.logpdf(f(x, noise), y).", "quantifier": "all models, inducing points, data, positive diagonal noise", "why_tests_cant": "inequality over all positive-definite matrices", "anchors": ["stheno/model/observations.py: AbstractPseudoObservations._compute (vfe)"]}
{"id": "C57", "title": "Observation caches are per measure and transparent", "statement": "K_x, K_z, elbo, mu and A return the value computed for the measure passed in, no matter in which order and for which other measures they were requested before.", "quantifier": "all observations, all measures, all request sequences", "why_tests_cant": "unbounded request histories", "anchors": ["stheno/model/observations.py: Observations.K_x, AbstractPseudoObservations.K_z, elbo, mu, A, _compute"]}
{"id": "C58", "title": "Non-diagonal noise is rejected by pseudo-points", "statement": "A pseudo-point approximation with an observation noise that is not represented as a diagonal matrix raises, for every accessor, and never returns numbers.", "quantifier": "all observations, all accessor sequences", "why_tests_cant": "all request histories after failure", "anchors": ["stheno/model/observations.py: AbstractPseudoObservations._compute"]}
{"id": "C59", "title": "diagonalise keeps the marginals and drops the correlations", "statement": "Normal.diagonalise gives the distribution with the same marginals and no correlations: its logpdf is the sum of the logpdfs of the marginals, and no distribution without correlations is closer in Kullback-Leibler divergence.", "quantifier": "all normals, all points", "why_tests_cant": "all sizes and all matrices; a minimum over all distributions without correlations", "anchors": ["stheno/random.py: Normal.diagonalise"]}
{"id": "C60", "title": "Every mean and covariance can be evaluated", "statement": "In every measure, the kernel of every pair of processes and the mean of every process can be evaluated at all inputs at which the processes have values (points, FDDs and tuples of them, non-empty), and the result has one row (and column) per value.", "quantifier": "all finite sequences of model-building operations, all inputs of all sizes", "why_tests_cant": "the expression graph is unbounded; whether an evaluation raises depends on the order in which the processes were built", "anchors": ["stheno/model/measure.py: Measure.sum, mul, shift, stretch, select, transform, diff, cross, condition", "stheno/mo/kernel.py: pairwise", "stheno/mo/mean.py: MultiOutputMean.__call__"]}
{"id": "C61", "title": "Conditioning a process is conditioning its measure", "statement": "p | obs returns a new process in a new measure. That measure is the posterior p.measure | obs. In it the process has the mean of p and the covariances of p with all processes of the prior. The prior, its processes and all names stay as they are.", "quantifier": "all programs over the API, all observations", "why_tests_cant": "all states that programs reach", "anchors": ["stheno/model/gp.py: GP.condition, GP.__or__", "stheno/model/measure.py: Measure.condition, Measure.__call__"]}
{"id": "C62", "title": "FDDs can be constructed", "statement": "For every process p and every input x at which the covariance of p evaluates, the size of p(x) can be inferred, so that p(x) can be constructed.", "quantifier": "all programs, all processes, also of posteriors, all inputs", "why_tests_cant": "all ways to build processes and to condition, and all inputs", "anchors": ["stheno/mo/infer.py: infer_size, dimensionality, _check_and_merge", "stheno/model/fdd.py: FDD.__init__"]}
{"id": "C63", "title": "Processes that say they are stationary are", "statement": "If p.stationary is true, then the covariance of p between any two arrays of points does not change when all points are translated by the same vector; in particular the variance is constant. Copying, shifting, stretching, selecting dimensions, scaling and adding constants or functions keep the attribute; sums of uncorrelated stationary processes have it; no process has it under a posterior with data.", "quantifier": "all sequences of model-building operations, all processes, all inputs and translations", "why_tests_cant": "all ways to build processes and all inputs", "anchors": ["stheno/model/gp.py: GP.stationary", "stheno/mo/adk.py: AmbiguousDimensionalityKernel._stationary"]}
