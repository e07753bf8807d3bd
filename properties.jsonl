{"id": "C01", "title": "Mixture weights are normalised", "statement": "Setting the component weights of a mixture distribution stores, for any input vector with at least one strictly positive finite entry and no +inf entry, a vector of the same length whose entries are all non-negative, sum to exactly one, are zero exactly where the input was NaN, -inf or <= 0, and keep the ratios of the positive inputs. Setting weights c*w (c>0) stores the same vector as setting w.", "quantifier": "every finite-length weight vector over finite numbers, NaN, +inf, -inf; every positive scale", "why_tests_cant": "the space of weight vectors (with any pattern of NaN/negative/zero entries) is infinite; unit tests check a handful of vectors", "anchors": ["ais_benchmarks/distributions/mixture/CMixtureModel.py: CMixtureModel.set_weights, CMixtureModel.__init__"]}
{"id": "C02", "title": "A mixture with no usable weight falls back to equal weights", "statement": "When every weight given to a mixture is NaN, zero or negative, the library announces 'Using equal weights for all components'; the stored weights are then 1/n each, the mixture density still integrates like a density and its log density is finite where a component's is.", "quantifier": "every non-empty weight vector without a strictly positive entry", "why_tests_cant": "needs all degenerate weight patterns, which occur only in rare sampler histories (e.g. all leaves empty)", "anchors": ["ais_benchmarks/distributions/mixture/CMixtureModel.py: CMixtureModel.set_weights, prob, log_prob"]}
{"id": "C03", "title": "Mixture density is the convex combination of its components", "statement": "For every mixture with normalised weights, and every query batch, the reported density of each row is the weight-averaged component density, it lies between the smallest and largest component density, and the reported log density is its logarithm (-inf exactly where the density is zero).", "quantifier": "every number of components, component densities, weights and query batches", "why_tests_cant": "algebraic identity over all weights/components/batches", "anchors": ["ais_benchmarks/distributions/mixture/CMixtureModel.py: CMixtureModel.prob, log_prob"]}
{"id": "C04", "title": "Mixture sampling returns the requested number of draws from live components", "statement": "sample(n) returns exactly n rows, row i being a draw from a single component, and a component with zero weight is never the source, for every outcome of the random selector compatible with its weights.", "quantifier": "every n, every mixture, every outcome of the categorical selector", "why_tests_cant": "random outcomes cannot be enumerated by tests", "anchors": ["ais_benchmarks/distributions/mixture/CMixtureModel.py: CMixtureModel.sample"]}
{"id": "C05", "title": "Uniform box density", "statement": "For every box with positive radii the uniform distribution reports density 1/volume inside the box and 0 outside, log density is its logarithm everywhere (-inf outside), density is never negative, and density times box volume is one.", "quantifier": "every dimension, centre, radius (scalar or per-dimension) and query point", "why_tests_cant": "all reals in all dimensions", "anchors": ["ais_benchmarks/distributions/parametric/CMultivariateUniform.py: CMultivariateUniform.__init__, prob, log_prob"]}
{"id": "C06", "title": "Uniform box probability mass", "statement": "The analytic integral of a uniform box distribution between corners a<=b is the fraction of the box's volume inside [a,b]: it lies in [0,1], is 1 on the support, 0 for query boxes that miss the support, and grows when the query box grows.", "quantifier": "every box and every pair of ordered corners", "why_tests_cant": "relative position of two boxes in any dimension has unboundedly many cases", "anchors": ["ais_benchmarks/distributions/parametric/CMultivariateUniform.py: CMultivariateUniform.integral"]}
{"id": "C07", "title": "Every sample of a uniform box has positive density", "statement": "Each point produced by sampling a uniform box distribution lies in its support and has strictly positive reported density, for every outcome of the random generator (half-open [low, high) draws).", "quantifier": "every box, every random draw in [low, high)", "why_tests_cant": "the failing draw has tiny probability and is not hit by random testing", "anchors": ["ais_benchmarks/distributions/parametric/CMultivariateUniform.py: sample, prob"]}
{"id": "C08", "title": "Gaussian density: consistent, symmetric, peaked at the mean", "statement": "For every mean and every covariance accepted by the constructor the reported density is the exponential of the reported log density, strictly positive, symmetric about the mean, translation-equivariant, and (for a covariance with positive semi-definite inverse) maximal at the mean. With independent coordinates it is the product of one-dimensional Gaussian densities, each of which integrates to one. After changing the moments the same holds for the new moments, and a refused change leaves the density as it was.", "quantifier": "every dimension, mean, covariance, query point and every history of moment updates", "why_tests_cant": "continuum of parameters and points", "anchors": ["ais_benchmarks/distributions/parametric/CMultivariateNormal.py: CMultivariateNormal.__init__, set_moments, log_prob, prob"]}
{"id": "C09", "title": "Exponential density", "statement": "For every mean m>0 the exponential distribution's reported density at x>0 is (1/m)exp(-x/m), 0 at x<=0, and the log density is the logarithm of the density at every point; evaluating any batch succeeds.", "quantifier": "every mean, every query batch", "why_tests_cant": "tests only use mean 1 and positive points", "anchors": ["ais_benchmarks/distributions/parametric/CMultivariateExponential.py: CMultivariateExponential.__init__, log_prob, prob"]}
{"id": "C10", "title": "Benchmark densities are normalised and log-consistent", "statement": "The Maxwell, Laplace and symmetric Pareto benchmark densities are non-negative, integrate to one over the real line, and report log densities whose exponential is the density, at every query point.", "quantifier": "every real query point; every integration window in the limit", "why_tests_cant": "improper integrals and all reals", "anchors": ["ais_benchmarks/distributions/benchden/d03_maxwell.py: BenchDenMaxwell", "ais_benchmarks/distributions/benchden/d04_laplace.py: BenchDenLaplace", "ais_benchmarks/distributions/benchden/d10_symmetric_pareto.py: BenchDenSymmetricPareto"]}
{"id": "C11", "title": "Benchmark uniform density is uniform on [0,1]", "statement": "The benchmark 'uniform' density (Berlinet/Devroye no. 1, documented as U[0,1]) is one on (0,1] and zero elsewhere.", "quantifier": "every real query point", "why_tests_cant": "all reals", "anchors": ["ais_benchmarks/distributions/benchden/d01_uniform.py: BenchDenUniform"]}
{"id": "C12", "title": "Smoothing kernels are probability kernels", "statement": "Each compact smoothing kernel (uniform, triangular, Epanechnikov) is non-negative, symmetric, zero outside [-1,1], integrates to one, and after applying any location and any positive inverse bandwidth it is still non-negative, symmetric about the location, supported within 1/bandwidth of it and integrates to one. The normal kernel is positive, symmetric about the location and integrates to one within 1e-11.", "quantifier": "every real point, location, bandwidth", "why_tests_cant": "continuum", "anchors": ["ais_benchmarks/distributions/distributions.py: CKernel"]}
{"id": "C13", "title": "Query-batch shape contract", "statement": "Density queries accept exactly: a flat vector with as many entries as the distribution has dimensions (treated as one row) and a batch of rows of that width; every other shape is rejected with an error, no accepted query loses or reorders rows, and the result has one value per row.", "quantifier": "every array shape and batch size, including empty batches", "why_tests_cant": "all shapes", "anchors": ["ais_benchmarks/distributions/distributions.py: CDistribution._check_shape"]}
{"id": "C14", "title": "Monte-Carlo integral is bounded", "statement": "The generic Monte-Carlo integral estimate of any distribution over a box is at least 0 and at most box volume times the largest density value, and equals the volume times a constant density, for every random draw.", "quantifier": "every distribution, box, sample count and random outcome", "why_tests_cant": "random outcomes", "anchors": ["ais_benchmarks/distributions/distributions.py: CDistribution.integral"]}
{"id": "C15", "title": "Distributions report density and log density consistently through the base class", "statement": "A distribution built from a log-likelihood (respectively likelihood) function reports prob and log_prob that are exp/log of each other; with neither it fails with an error instead of returning a value.", "quantifier": "every likelihood function, every query", "why_tests_cant": "function space", "anchors": ["ais_benchmarks/distributions/distributions.py: CDistribution.prob, log_prob"]}
{"id": "C16", "title": "ABC target: surrogate likelihood times prior, only after conditioning", "statement": "An ABC target refuses density queries until it has been conditioned on an observation, and from then on, for the last observation given, reports as log density of each query row the surrogate log likelihood of (observation, simulated observation) plus the prior log density; the reported density is the exponential of the log density for the same simulator output, whichever form of surrogate likelihood was supplied.", "quantifier": "every surrogate likelihood, prior, simulator output, observation, query batch and history of conditioning calls", "why_tests_cant": "history dependent, simulator and surrogate are arbitrary functions", "anchors": ["ais_benchmarks/distributions/derived/CABCDistribution.py: ABCDistribution.condition, log_prob, prob"]}
{"id": "C17", "title": "Kullback-Leibler divergence is a divergence", "statement": "For every two vectors of density values evaluated at common points with at least one point where both are positive, the reported KL divergence is >= 0, is 0 exactly when the two are proportional on the common support, is unaffected by rescaling either density, and the log-density entry point reports the same value as the density entry point.", "quantifier": "every number of points, every pair of density vectors", "why_tests_cant": "inequality over all real vectors (Gibbs)", "anchors": ["ais_benchmarks/metrics/divergences.py: CKLDivergence.compute_from_log_probs, compute_from_probs"]}
{"id": "C18", "title": "KL divergence of distributions with disjoint support is infinite", "statement": "If no evaluated point has positive density under both distributions the reported KL divergence is +inf (as the library's own test expects); likewise if some point has positive density under the first and zero density under the second.", "quantifier": "every pair of density vectors with disjoint positive parts", "why_tests_cant": "any disjoint configuration, any dimension", "anchors": ["ais_benchmarks/metrics/divergences.py: CKLDivergence.compute, compute_from_log_probs"]}
{"id": "C19", "title": "Jensen-Shannon divergence is a bounded symmetric divergence", "statement": "For every two vectors of density values with at least one common-support point the reported JS divergence is in [0,1], symmetric in its arguments, zero exactly when the two are proportional on the common support, and unaffected by rescaling either density.", "quantifier": "every number of points and density vectors", "why_tests_cant": "inequality over all real vectors", "anchors": ["ais_benchmarks/metrics/divergences.py: CJSDivergence.compute_from_samples"]}
{"id": "C20", "title": "JS divergence separates disjoint distributions", "statement": "Two distributions with no common-support evaluation point get the maximal JS divergence 1.", "quantifier": "every pair of density vectors with disjoint positive parts", "why_tests_cant": "any disjoint configuration", "anchors": ["ais_benchmarks/metrics/divergences.py: CJSDivergence.compute_from_samples"]}
{"id": "C21", "title": "Expected-value error metric", "statement": "The expected-value squared-error metric is >= 0, zero when both densities are proportional at the evaluated points, symmetric in the two distributions, and unaffected by rescaling either density.", "quantifier": "every batch of points, every pair of non-negative density vectors with positive sum", "why_tests_cant": "all vectors", "anchors": ["ais_benchmarks/metrics/statistics.py: CExpectedValueMSE"]}
{"id": "C22", "title": "Normalised effective sample size from weights is in [1/n,1]", "statement": "For any non-negative weights with positive sum, the reported normalised effective sample size is at least 1/n, at most 1, equal to 1 exactly when all weights are equal, and invariant under rescaling of the weights.", "quantifier": "every n and weight vector", "why_tests_cant": "Cauchy-Schwarz over all vectors", "anchors": ["ais_benchmarks/sampling_methods/base.py: CSamplingMethod.get_approx_NESS"]}
{"id": "C23", "title": "Elapsed-time metric accumulates exactly the bracketed intervals", "statement": "Over any history of reset/pre/post calls the reported time is the sum over pre-post brackets since the last reset of (end - start - overhead); reset makes it zero; reading it does not change it.", "quantifier": "every history of calls and every clock", "why_tests_cant": "all histories and clocks", "anchors": ["ais_benchmarks/metrics/performance.py: CElapsedTime"]}
{"id": "C24", "title": "Memory metric starts from zero after reset", "statement": "Over any history of calls, after reset the reported memory usage is independent of everything measured before the reset.", "quantifier": "every history of calls and memory readings", "why_tests_cant": "all histories", "anchors": ["ais_benchmarks/metrics/performance.py: CMemoryUsage"]}
{"id": "C25", "title": "Rejection sampling fulfils the request", "statement": "When the rejection sampler's call ends without timing out, it holds exactly max(n, previously held) samples; with a timeout it holds between the previous number and that; earlier samples are kept unchanged and in order; every held sample has weight 1/len and weights sum to one.", "quantifier": "every request sequence, random outcome, target, clock", "why_tests_cant": "stochastic loop with arbitrary timing", "anchors": ["ais_benchmarks/sampling_methods/rejection.py: CRejectionSampling.importance_sample"]}
{"id": "C26", "title": "Rejection sampling accepts exactly by the rejection rule", "statement": "The samples added by a call are exactly, in order, the proposals drawn whose target density divided by (scaling * proposal density) exceeds their uniform draw; in particular a point of zero target density is never returned.", "quantifier": "every batch of proposals and uniform draws", "why_tests_cant": "random outcomes", "anchors": ["ais_benchmarks/sampling_methods/rejection.py: CRejectionSampling.importance_sample"]}
{"id": "C27", "title": "Rejection sampling effort counters are exact", "statement": "After any sequence of calls the reported numbers of proposal samples, target evaluations and proposal evaluations equal the numbers of points actually drawn and evaluated, and the acceptance rate is at most one.", "quantifier": "every call sequence and outcome", "why_tests_cant": "depends on random acceptance pattern", "anchors": ["ais_benchmarks/sampling_methods/rejection.py: CRejectionSampling.importance_sample", "ais_benchmarks/sampling_methods/base.py: CSamplingMethod.get_acceptance_rate, get_stats"]}
{"id": "C28", "title": "Rejection sampling always returns", "statement": "Every call returns samples and weights, even when the time budget ends before any acceptance.", "quantifier": "every target, budget and outcome", "why_tests_cant": "needs adversarial timing", "anchors": ["ais_benchmarks/sampling_methods/rejection.py: CRejectionSampling.importance_sample", "ais_benchmarks/sampling_methods/base.py: CMixtureSamplingMethod._update_model"]}
{"id": "C29", "title": "Metropolis-Hastings never leaves the sampling space", "statement": "Every visited and every returned Metropolis-Hastings state lies inside [space_min, space_max], for all proposals, targets, random draws, timeouts and call histories.", "quantifier": "every history of calls, proposal, target, draw", "why_tests_cant": "unbounded random walks", "anchors": ["ais_benchmarks/sampling_methods/metropolis_hastings.py: CMetropolisHastings.mcmc_step, mcmc, sample, importance_sample"]}
{"id": "C30", "title": "Metropolis-Hastings bookkeeping", "statement": "At every moment the number of recorded trajectory points equals the number of recorded move labels and the reported number of proposal samples; target and proposal evaluation counters are twice that; the number of points labelled as samples equals the number of returned samples when no step hit its time limit.", "quantifier": "every history of calls", "why_tests_cant": "all histories", "anchors": ["ais_benchmarks/sampling_methods/metropolis_hastings.py: CMetropolisHastings"]}
{"id": "C31", "title": "Metropolis-Hastings sample(n) returns n samples", "statement": "Calling sample(n) on the MCMC sampler returns exactly n samples.", "quantifier": "every n", "why_tests_cant": "a test with n=1 passes", "anchors": ["ais_benchmarks/sampling_methods/metropolis_hastings.py: CMetropolisHastings.sample, mcmc"]}
{"id": "C32", "title": "Metropolis-Hastings only moves to accepted proposals", "statement": "The state after a step is a proposal that passed the Metropolis-Hastings acceptance test against the previous state.", "quantifier": "every draw sequence and clock", "why_tests_cant": "time-limit path is timing dependent", "anchors": ["ais_benchmarks/sampling_methods/metropolis_hastings.py: CMetropolisHastings.mcmc_step"]}
{"id": "C33", "title": "Metropolis-Hastings is reversible with respect to the target", "statement": "The acceptance rule satisfies detailed balance with the target for every target, every (possibly asymmetric) displacement proposal and every pair of states, and the chain of states produced by repeated steps has the target as stationary distribution.", "quantifier": "every finite state space, target, proposal", "why_tests_cant": "statement about all transition probabilities", "anchors": ["ais_benchmarks/sampling_methods/metropolis_hastings.py: CMetropolisHastings.mcmc_step"]}
{"id": "C34", "title": "Nested sampling likelihoods: sorted and attached to the right sample", "statement": "After any sequence of calls whose replacement searches end without timing out, the recorded likelihoods are non-decreasing, and the k-th recorded likelihood is the target value at the k-th returned sample.", "quantifier": "every target, replacement draws and call sequence", "why_tests_cant": "depends on random replacement and aliasing", "anchors": ["ais_benchmarks/sampling_methods/nested.py: CNestedSampling.importance_sample, resample"]}
{"id": "C35", "title": "Nested sampling weights", "statement": "Weights returned by nested sampling are non-negative, sum to one whenever some recorded likelihood is positive, and are proportional to likelihood times prior-volume shell, the shells being disjoint pieces of the unit prior mass (total at most one).", "quantifier": "every likelihood sequence and number of live points", "why_tests_cant": "all sequences", "anchors": ["ais_benchmarks/sampling_methods/nested.py: CNestedSampling.importance_sample"]}
{"id": "C36", "title": "Nested sampling stays in the sampling space", "statement": "Every live point and every returned sample of nested sampling lies in [space_min, space_max].", "quantifier": "every target, proposal draw and call history", "why_tests_cant": "needs an out-of-space redraw to be accepted", "anchors": ["ais_benchmarks/sampling_methods/nested.py: CNestedSampling.resample"]}
{"id": "C37", "title": "Multi-nested clustering terminates and partitions the live points", "statement": "For every set of at least two live points, no fewer than the dimension, and every clustering oracle, recursive clustering ends, returns at least one group, the groups are non-empty, disjoint and cover all live points.", "quantifier": "every set of points, every answer of the k-means oracle, every ellipsoid volume/distance", "why_tests_cant": "oracle answers are arbitrary", "anchors": ["ais_benchmarks/sampling_methods/multi_nested.py: CMultiNestedSampling.recursive_clustering"]}
{"id": "C38", "title": "Nested sampling fulfils the request and keeps its live set", "statement": "A (multi-)nested sampling call for n samples leaves at least n samples, keeps the number of live points and keeps earlier samples unchanged and in order.", "quantifier": "every n, history, target, random outcome", "why_tests_cant": "all histories", "anchors": ["ais_benchmarks/sampling_methods/nested.py: CNestedSampling.importance_sample", "ais_benchmarks/sampling_methods/multi_nested.py: CMultiNestedSampling.importance_sample"]}
{"id": "C39", "title": "Deterministic-mixture AIS fulfils the request and counts its work", "statement": "When a DM-AIS call ends without timing out it holds at least n and fewer than n + N*K samples, a multiple of N*K in total; returned weights are non-negative and sum to one when some weight is positive; proposal-sample and target-evaluation counters equal the number of samples, and the proposal-evaluation counter equals the number of proposal density evaluations.", "quantifier": "every N, K, request sequence, target, outcome, clock", "why_tests_cant": "all histories", "anchors": ["ais_benchmarks/sampling_methods/dm_ais.py: CDeterministicMixtureAIS.importance_sample"]}
{"id": "C40", "title": "Deterministic-mixture AIS weights and adaptation", "statement": "Each sample's weight is the target density divided by the equally weighted mixture of the proposals it was drawn from (before adaptation), and after adaptation every proposal mean is one of the just-drawn samples, of non-zero weight.", "quantifier": "every batch, target, proposals and selector outcome", "why_tests_cant": "random outcomes", "anchors": ["ais_benchmarks/sampling_methods/dm_ais.py: CDeterministicMixtureAIS.importance_sample, resample"]}
{"id": "C41", "title": "Layered AIS proposal means stay in the sampling space", "statement": "After construction, reset and any sequence of calls, every proposal mean of layered AIS lies in [space_min, space_max].", "quantifier": "every history, draw and target", "why_tests_cant": "unbounded histories", "anchors": ["ais_benchmarks/sampling_methods/layered_ais.py: CLayeredAIS.reset, mcmc_mh, resample"]}
{"id": "C42", "title": "Layered AIS effort counters", "statement": "After any number t of iterations, layered AIS has t*N*K samples, reports t*(N*K+N*L) proposal samples and t*(N*K+2*N*L) target evaluations.", "quantifier": "every N, K, L, history", "why_tests_cant": "all histories", "anchors": ["ais_benchmarks/sampling_methods/layered_ais.py: CLayeredAIS.importance_sample, mcmc_mh"]}
{"id": "C43", "title": "M-PMC mixture weights remain a probability vector", "statement": "After every adaptation the mixture weights of M-PMC are non-negative and sum to one, the component posteriors of each sample sum to one, each new component mean lies in the bounding box of the batch, and the importance weights returned to the user sum to one.", "quantifier": "every batch, target, proposals, number of iterations", "why_tests_cant": "all histories and reals", "anchors": ["ais_benchmarks/sampling_methods/m_pmc.py: CMixturePMC.adapt, importance_sample"]}
{"id": "C44", "title": "M-PMC covariance is the weighted sample covariance", "statement": "Each adapted component covariance equals the importance- and posterior-weighted covariance of the batch around the new mean (eq. 14.3 cited in the code).", "quantifier": "every batch, weights and posteriors", "why_tests_cant": "all reals", "anchors": ["ais_benchmarks/sampling_methods/m_pmc.py: CMixturePMC.adapt"]}
{"id": "C45", "title": "Tree pyramid bookkeeping stays consistent", "statement": "For every history of expansions (accepted or refused) of the partition tree: node and leaf numbering agree with positions, the leaf mask marks exactly the leaves, all per-node arrays have one row per node with matching centre and radius, and the numbers of nodes and leaves after k accepted expansions are 1+k*2^d and 1+k*(2^d-1).", "quantifier": "every dimension, every expansion history", "why_tests_cant": "unbounded histories", "anchors": ["ais_benchmarks/sampling_methods/tree_pyramid.py: CTreePyramid.__init__, expand, CTreePyramidNode"]}
{"id": "C46", "title": "Tree pyramid leaves partition the space", "statement": "For every expansion history the leaf cells cover the root cell, have pairwise disjoint interiors and total volume equal to the root volume; the root cell covers [space_min, space_max].", "quantifier": "every dimension, every expansion history, every point", "why_tests_cant": "unbounded histories, all points", "anchors": ["ais_benchmarks/sampling_methods/tree_pyramid.py: CTreePyramid.expand, CTreePyramid.__init__"]}
{"id": "C47", "title": "Tree pyramid point location", "statement": "Locating a point of the root cell in the tree terminates and returns the leaf cell containing it, at any stage of refinement.", "quantifier": "every tree, every point", "why_tests_cant": "all trees and points", "anchors": ["ais_benchmarks/sampling_methods/tree_pyramid.py: CTreePyramid.find, CTreePyramidNode.get_child"]}
{"id": "C48", "title": "Tree pyramid leaf sampling", "statement": "With the uniform kernel, each leaf resample lies in its own leaf cell, uniformly (it is the image of a unit-cell draw of its own under the map of the unit cube onto the cell), and its weight is the target density times the cell volume, for every unit-cell draw; the weight is target density over proposal density for every kernel.", "quantifier": "every tree, draw, target", "why_tests_cant": "random outcomes", "anchors": ["ais_benchmarks/sampling_methods/tree_pyramid.py: CTreePyramidSampling.resample, CTreePyramidNode.sample, weigh"]}
{"id": "C49", "title": "Tree pyramid proposal is a piecewise-constant probability density", "statement": "With the uniform kernel the reported density at a point strictly inside a leaf is that leaf's normalised weight divided by its volume, it is non-negative everywhere, zero outside the root cell, and the total mass (sum of density times volume) is one.", "quantifier": "every tree, weights, query point", "why_tests_cant": "all trees and points", "anchors": ["ais_benchmarks/sampling_methods/tree_pyramid.py: CTreePyramidSampling.prob, _self_normalize"]}
{"id": "C50", "title": "Tree pyramid returns every sample it drew", "statement": "The samples/weights returned by the tree sampler are exactly the samples held by the leaves with their weights, none lost or duplicated.", "quantifier": "every tree and per-leaf sample history", "why_tests_cant": "needs leaves holding several samples", "anchors": ["ais_benchmarks/sampling_methods/tree_pyramid.py: CTreePyramidSampling._get_samples"]}
{"id": "C51", "title": "Tree pyramid effort counters", "statement": "The reported target and proposal evaluation and proposal sample counters equal the number of evaluations and draws actually made.", "quantifier": "every call history", "why_tests_cant": "all histories", "anchors": ["ais_benchmarks/sampling_methods/tree_pyramid.py: CTreePyramidSampling.importance_sample_simple, importance_sample_mixture, resample"]}
{"id": "C52", "title": "Binary tree partition of HiDaisee", "statement": "For every sequence of splits the leaf boxes of the binary tree are pairwise disjoint, cover the space box, have positive radii, volumes summing to the space volume, and the leaf list/node list agree.", "quantifier": "every dimension, every split sequence and split dimension", "why_tests_cant": "unbounded histories", "anchors": ["ais_benchmarks/sampling_methods/hi_daisee.py: CHiDaiseeTree.split, CHiDaiseeNode"]}
{"id": "C53", "title": "HiDaisee keeps every sample exactly once", "statement": "A HiDaisee call for n samples ends holding exactly max(n, previously held) samples; splits redistribute the samples of a node to its children without loss or duplication, each into the child box containing it, with weight equal to target density times the leaf volume.", "quantifier": "every target, draws, history", "why_tests_cant": "all histories", "anchors": ["ais_benchmarks/sampling_methods/hi_daisee.py: CHiDaiseeSampling.importance_sample, CHiDaiseeTree.split, _get_samples"]}
{"id": "C54", "title": "HiDaisee node values are the sums of their children's", "statement": "After every draw, each internal node's sampling value equals the sum of its two children's values, so that the descent probabilities are consistent with the leaf values.", "quantifier": "every tree, every draw", "why_tests_cant": "needs trees of depth at least two", "anchors": ["ais_benchmarks/sampling_methods/hi_daisee.py: CHiDaiseeSampling.importance_sample"]}
{"id": "C55", "title": "HiDaisee accepts every point its own leaves can generate", "statement": "Sampling from any leaf and splitting any leaf never fails, for every random draw in the leaf's half-open range.", "quantifier": "every draw in [low, high)", "why_tests_cant": "the failing draws are boundary points", "anchors": ["ais_benchmarks/sampling_methods/hi_daisee.py: CHiDaiseeTree.split, CHiDaiseeSampling.importance_sample"]}
{"id": "C56", "title": "Benchmark evaluation terminates within its budgets", "statement": "Evaluating a method ends: at the latest when the sampling time exceeds the configured maximum, or when the configured number of samples is reached; with a method that gains at least one sample per call at most max_samples calls are made per repetition.", "quantifier": "every method behaviour, clock, budgets", "why_tests_cant": "non-terminating behaviour cannot be observed by a finite test", "anchors": ["ais_benchmarks/benchmark/CBenchmark.py: CBenchmark.evaluate_method"]}
{"id": "C57", "title": "Benchmark rows: count and growth", "statement": "For each repetition of a finished evaluation the result file gets one row per sampling call, labelled with the target's dimension, the number of samples the call returned and the names; each request exceeds the previous result by batch_size; only the last row of a repetition reaches max_samples. Counts never decrease when the method keeps its samples, and are exactly the multiples of batch_size when it delivers what is asked.", "quantifier": "every method behaviour", "why_tests_cant": "all method behaviours", "anchors": ["ais_benchmarks/benchmark/CBenchmark.py: CBenchmark.evaluate_method"]}
{"id": "C58", "title": "Benchmark result rows match the header", "statement": "Every line written to the result table has exactly as many space separated fields as the header line, with each metric under its own column, for every configured metric list and method/target names.", "quantifier": "every metric list, names, values", "why_tests_cant": "all configurations and all values (field widths)", "anchors": ["ais_benchmarks/benchmark/CBenchmark.py: CBenchmark.run, evaluate_method, write_results"]}
{"id": "C59", "title": "Benchmark results depend only on seed, method and target", "statement": "With a fixed seed the rows produced for a method/target pair do not depend on what was evaluated before with the same sampler object.", "quantifier": "every history of evaluations", "why_tests_cant": "all histories", "anchors": ["ais_benchmarks/benchmark/CBenchmark.py: CBenchmark.evaluate_method", "ais_benchmarks/sampling_methods/metropolis_hastings.py: CMetropolisHastings.reset"]}
{"id": "C60", "title": "Time formatting round-trips", "statement": "Converting t seconds into hours, minutes, seconds gives integers h and m with 0<=m<60, 0<=s<60 and h*3600+m*60+s=t.", "quantifier": "every t", "why_tests_cant": "all numbers", "anchors": ["ais_benchmarks/utils/misc.py: time_to_hms"]}
{"id": "C61", "title": "Evaluation grids cover the box", "statement": "The evaluation grid over a box has, per dimension, max(1, floor(range/resolution)) points, product of them in total, contains each combination exactly once, every point in the box, and both extreme corners when each dimension has at least two points.", "quantifier": "every dimension, box, resolution", "why_tests_cant": "all boxes/resolutions", "anchors": ["ais_benchmarks/sampling_methods/base.py: make_grid", "ais_benchmarks/utils/plot_utils.py: make_grid"]}
{"id": "C62", "title": "Random GMM targets fit in the requested space", "statement": "The random Gaussian-mixture generator returns the requested number of components with means at least five sigmas inside the space, weights that sum to one and a support box contained in the space and containing every mean.", "quantifier": "every random outcome, box, number of components", "why_tests_cant": "random outcomes", "anchors": ["ais_benchmarks/utils/misc.py: generateRandomGMM, generateEggBoxGMM"]}
{"id": "C63", "title": "Non-blocking stream reader never loses, reorders or blocks", "statement": "For every interleaving of the background reader with the consumer: successive reads return a prefix of the stream's lines in order; a read never blocks; read-last returns the newest line already received, and afterwards a later read-last never returns an older line.", "quantifier": "every interleaving of producer and consumer steps", "why_tests_cant": "schedules", "anchors": ["ais_benchmarks/utils/misc.py: CNonBlockingStreamReader"]}
{"id": "C64", "title": "Reset restores the initial state of a sampler", "statement": "After reset every sampler reports zero samples, zero counters and no model carried over, and behaves as a newly constructed one under the same random draws.", "quantifier": "every sampler, every history before the reset", "why_tests_cant": "all histories", "anchors": ["ais_benchmarks/sampling_methods/base.py: CSamplingMethod.reset", "ais_benchmarks/sampling_methods/*.py: reset"]}
{"id": "C65", "title": "Kernel-density proposal of sample-based methods", "statement": "The density model rebuilt after each call of the sample-based methods has the requested number of components, each centred on one of the held samples, with equal weights summing to one.", "quantifier": "every history and every random choice of samples", "why_tests_cant": "random outcomes", "anchors": ["ais_benchmarks/sampling_methods/base.py: CMixtureSamplingMethod._update_model"]}
{"id": "C66", "title": "Metropolis-Hastings fulfils the request", "statement": "A call for n samples keeps earlier samples unchanged and in order, never holds more than max(n, previously held), holds exactly that many when the clock stays below the time limit, and returns equal weights 1/len summing to one.", "quantifier": "every target, draw, clock, history", "why_tests_cant": "random outcomes and clocks", "anchors": ["ais_benchmarks/sampling_methods/metropolis_hastings.py: CMetropolisHastings.importance_sample"]}
{"id": "C67", "title": "Autocorrelation effective sample size is a fraction", "statement": "The normalised effective sample size reported from the sample autocorrelations is a finite number in (0,1] for every sequence of at least two distinct samples, and does not change when all samples are shifted and rescaled.", "quantifier": "every sample sequence", "why_tests_cant": "all sequences", "anchors": ["ais_benchmarks/sampling_methods/base.py: CSamplingMethod.get_NESS"]}
{"id": "C68", "title": "Nested sampling effective sample size is a fraction", "statement": "The normalised effective sample size reported by the nested samplers after a call (exponential of the weight entropy over the number of samples) is a finite number in (0, 1].", "quantifier": "every sequence of recorded likelihoods", "why_tests_cant": "all weight vectors", "anchors": ["ais_benchmarks/sampling_methods/nested.py: CNestedSampling.get_NESS", "ais_benchmarks/sampling_methods/multi_nested.py: CMultiNestedSampling.get_NESS"]}
{"id": "C69", "title": "Nested sampling effort counters", "statement": "The target evaluation counter of nested sampling equals the number of points at which the target was evaluated, and each call adds to the proposal sample counter exactly the number of points it drew.", "quantifier": "every history, draw, target and clock", "why_tests_cant": "all histories", "anchors": ["ais_benchmarks/sampling_methods/nested.py: CNestedSampling.importance_sample, resample"]}
{"id": "C70", "title": "Layered AIS weights, walks and request", "statement": "Each sample of layered AIS is weighted by target density over the equally weighted mixture of the proposals it was drawn from (before their walk); each adaptation moves every proposal mean by L Metropolis steps that never leave the support of the target once inside; a call never raises, holds at least n and fewer than n + N*K samples when it ends in time, and returns weights that are non-negative and sum to one when some weight is positive.", "quantifier": "every N, K, L, history, target, outcome and clock", "why_tests_cant": "random outcomes and unbounded histories", "anchors": ["ais_benchmarks/sampling_methods/layered_ais.py: CLayeredAIS.importance_sample, resample, mcmc_mh"]}
{"id": "C71", "title": "M-PMC fulfils the request and counts its work", "statement": "A call of M-PMC that ends in time holds at least n and fewer than n + K samples; in every history the numbers of samples, proposal draws, target evaluations and proposal evaluations after t batches are t*K, t*K, t*K and t*K*(1+N) plus what sample() and abandoned batches account for; and no call raises for a target that is positive somewhere in each batch.", "quantifier": "every N, K, history, target, outcome and clock", "why_tests_cant": "random outcomes and unbounded histories", "anchors": ["ais_benchmarks/sampling_methods/m_pmc.py: CMixturePMC.importance_sample, adapt", "ais_benchmarks/distributions/parametric/CMultivariateNormal.py: set_moments"]}
{"id": "C72", "title": "Tree pyramid fulfils the request", "statement": "A call of the tree sampler (simple method) for n samples never raises, ends after at most n turns unless its time is over earlier, then holds at least n samples and fewer than n plus one batch (or what it held before); samples are never lost.", "quantifier": "every target, draws, clock, dimension, parallelism and history", "why_tests_cant": "needs all targets (including ones missed by all draws) and all histories", "anchors": ["ais_benchmarks/sampling_methods/tree_pyramid.py: CTreePyramidSampling.importance_sample_simple, _get_samples, CTreePyramid.expand"]}
{"id": "C73", "title": "The mixture methods of the tree sampler fulfil the request", "statement": "A call with method dm or mixture for n samples returns at least n samples unless its time is over.", "quantifier": "every target, draws, history", "why_tests_cant": "whether a call ever returns cannot be observed by running it", "anchors": ["ais_benchmarks/sampling_methods/tree_pyramid.py: CTreePyramidSampling.importance_sample_mixture, CTreePyramid.find"]}
{"id": "C74", "title": "The tree sampler refines the most promising leaves", "statement": "In every turn of the simple method, a leaf is expanded only if no leaf left unexpanded (and allowed to be expanded) has a greater value.", "quantifier": "every reachable tree without NaN values, every target and parallelism", "why_tests_cant": "all trees and orders of ties", "anchors": ["ais_benchmarks/sampling_methods/tree_pyramid.py: CTreePyramidSampling.importance_sample_simple"]}
{"id": "C75", "title": "Tree sampler weights are importance weights", "statement": "Without leaf resampling, after each call all returned weights are, up to one common factor, the target density over the density of the leaf kernel the sample was drawn from.", "quantifier": "every non-negative target, draws, history of calls", "why_tests_cant": "needs histories with several calls and all targets", "anchors": ["ais_benchmarks/sampling_methods/tree_pyramid.py: CTreePyramidSampling.importance_sample_simple, _self_normalize, _update_model"]}
{"id": "C76", "title": "HiDaisee density", "statement": "After every call that returned, with non-negative targets, the reported density is constant on every leaf box, integrates to one, gives every leaf mass proportional to the mean weight of its samples and is zero outside the space; before the first call it is uniform on the space.", "quantifier": "every target, draws, history", "why_tests_cant": "all histories and all points", "anchors": ["ais_benchmarks/sampling_methods/hi_daisee.py: CHiDaiseeSampling._update_model, _get_weights_nodes, reset"]}
{"id": "C77", "title": "HiDaisee counters", "statement": "The reported number of proposal samples is the number of samples held plus those drawn with sample(), target and proposal evaluations are always equal and at least as many as the samples held.", "quantifier": "every target, draws, history", "why_tests_cant": "all histories", "anchors": ["ais_benchmarks/sampling_methods/hi_daisee.py: CHiDaiseeSampling.importance_sample"]}
{"id": "C78", "title": "Gaussian mixture target density", "statement": "A Gaussian mixture target built from means, per-coordinate variances and optional weights (equal ones if none are given) has as density the sum, with the weights normalised, of products of one-dimensional Gaussians; its log density is the logarithm of it; the density is positive and integrates to one; non-positive variances are refused.", "quantifier": "every dimension, number of components, means, variances, weights and points", "why_tests_cant": "real-valued parameters and an integral over the whole space", "anchors": ["ais_benchmarks/distributions/mixture/CGaussianMixtureModel.py: CGaussianMixtureModel.__init__, prob, log_prob"]}
{"id": "C79", "title": "Point mass target", "statement": "A point mass has density +inf at its centre and 0 at every other point (log density +inf and -inf), every sample is the centre and has density +inf, and the probability of a box is 1 when the centre is strictly inside and 0 when it is outside.", "quantifier": "every centre, point, box and number of samples", "why_tests_cant": "all points of the space, including those arbitrarily near the centre", "anchors": ["ais_benchmarks/distributions/parametric/CMultivariateDelta.py: CMultivariateDelta.prob, log_prob, sample, integral"]}
{"id": "C80", "title": "Banana target", "statement": "The banana target gives one value per row; log density and density belong together; the density is, up to one constant (2 pi sqrt(100/3), its total mass), the density of x ~ N(0, 100/3), y given x ~ N(3 - 0.03 x^2, 1); it is positive, at most one, one exactly at (0, 3) and symmetric in x; arrays of another width are refused.", "quantifier": "all batches and points", "why_tests_cant": "an integral over the plane and all points", "anchors": ["ais_benchmarks/distributions/rare/banana2d.py: Banana2D.log_prob, prob, logdensity"]}
{"id": "C81", "title": "Function observed under noise", "statement": "A noisy function that was conditioned on x (and given parameters z) samples f(x, z) plus noise, one row per row of x, for the last x and z set; its density at y is the density of the noise at y - f(x, z); before conditioning every query fails.", "quantifier": "every function, noise density, conditioning value, parameters and call history", "why_tests_cant": "all functions and histories", "anchors": ["ais_benchmarks/distributions/derived/CGenericNoisyFunction.py: GenericNoisyFunction.sample, prob, log_prob, condition, set_params"]}
{"id": "C82", "title": "Waiting for a distribution", "statement": "Waiting with a timeout ends with True exactly when the distribution is found ready at a poll before the deadline, with TimeoutError exactly when at least the timeout has passed at a poll and it was not found ready before, and it ends on every clock that advances.", "quantifier": "every timeout, clock and readiness pattern", "why_tests_cant": "all interleavings of clock and readiness", "anchors": ["ais_benchmarks/distributions/distributions.py: CDistribution.wait_for_ready"]}
{"id": "C83", "title": "Benchmark loading and order of evaluations", "statement": "Whatever the benchmark object was used for before (failed loads included), the targets it holds are a beginning of the file loaded last, each with its own dimension, sample numbers and batch size; a run evaluates exactly all pairs of targets and methods of its files, in file order, each with its target's numbers and a method built for that target; a bad entry makes it raise after exactly the pairs of the targets before.", "quantifier": "every pair of files and every history of loads and runs", "why_tests_cant": "all files and histories", "anchors": ["ais_benchmarks/benchmark/CBenchmark.py: CBenchmark.load_benchmark, load_methods, run"]}
{"id": "C84", "title": "Methods are built for the support of their target", "statement": "Every sampling method evaluated by a run is built for exactly the support box and the dimension of its target.", "quantifier": "every pair of files, history and support", "why_tests_cant": "all real-valued supports", "anchors": ["ais_benchmarks/benchmark/CBenchmark.py: CBenchmark.load_methods"]}
{"id": "C85", "title": "Curves of the benchmark plots", "statement": "For a target the plot of a metric has one curve per method with results: one point per evaluated number of samples in increasing order, its height the average of the metric over the repetitions at that number of samples, its band their standard deviation, uninfluenced by the rows of other methods, dimensions or targets.", "quantifier": "every result table, method, dimension, target", "why_tests_cant": "tables of every length; the plots are never compared with the table by a test", "anchors": ["ais_benchmarks/benchmark/CBenchmark.py: CBenchmark.make_2d_plot", "ais_benchmarks/benchmark/CBenchmark.py: CBenchmark.make_plots"]}
{"id": "C86", "title": "HiDaisee keeps exploring", "statement": "At any time every component of the density reported by HiDaisee has a positive probability of receiving the next sample: there are intervals of positive length for the random numbers that lead the next call to draw in that component's box, whatever the target does next.", "quantifier": "every history of calls with non-negative targets, every dimension and component", "why_tests_cant": "a probability over all random outcomes after all histories", "anchors": ["ais_benchmarks/sampling_methods/hi_daisee.py: CHiDaiseeSampling.importance_sample", "ais_benchmarks/sampling_methods/hi_daisee.py: CHiDaiseeTree.split"]}
{"id": "C87", "title": "Rejection sampling is exact", "statement": "When scaling times the proposal is nowhere below the target, the points that rejection sampling returns are independent draws of the normalised target: conditionally on k points being accepted, the probability that they fall into any k given sets is the product of the normalised target masses of these sets; after N proposals the probability of still having no point is (1 - mass/scaling)^N.", "quantifier": "every target, proposal, scaling with the stated bound, every number of proposals, points and sets", "why_tests_cant": "a law over all random outcomes; any finite experiment only estimates it", "anchors": ["ais_benchmarks/sampling_methods/rejection.py: CRejectionSampling.importance_sample"]}
{"id": "C88", "title": "Deterministic mixture weights are unbiased", "statement": "The raw weights that deterministic mixture AIS and layered AIS store make unbiased estimates: for any function f, the expected sum of weight times f over the samples that a request adds is their number times the integral of target times f, whatever the earlier adaptations did. With f = 1 the mean weight is an unbiased estimate of the evidence.", "quantifier": "every history, target, function f, number of proposals, samples per proposal and request", "why_tests_cant": "an expected value over all random outcomes after every history; tests see single outcomes", "anchors": ["ais_benchmarks/sampling_methods/dm_ais.py: CDeterministicMixtureAIS.importance_sample", "ais_benchmarks/sampling_methods/layered_ais.py: CLayeredAIS.importance_sample"]}
{"id": "C89", "title": "HiDaisee's density follows the target", "statement": "After a request with the same target throughout, the density that HiDaisee reports at a point lies between the smallest value of the target on the box of that point divided by an upper Riemann sum of the target over the boxes, and the largest value divided by a lower one.", "quantifier": "every box, boost and threshold parameter, target, history of requests and draw", "why_tests_cant": "a two-sided bound at every point for all targets and all histories", "anchors": ["ais_benchmarks/sampling_methods/hi_daisee.py: CHiDaiseeSampling.importance_sample, _update_model"]}
{"id": "C90", "title": "HiDaisee's weights estimate the evidence", "statement": "The mean of the weights that HiDaisee returns estimates the evidence: with enough boxes it is close to the integral of the target, that is, it lies between a lower and an upper Riemann sum of the target over the boxes in use.", "quantifier": "every box, boost and threshold parameter, target, history of requests and draw", "why_tests_cant": "the comparison with the integral needs all targets and histories; a plot of the samples looks right", "anchors": ["ais_benchmarks/sampling_methods/hi_daisee.py: CHiDaiseeTree.split", "ais_benchmarks/sampling_methods/hi_daisee.py: CHiDaiseeSampling.importance_sample, _get_samples"]}
{"id": "C91", "title": "Adapting the M-PMC mixture improves its fit to the weighted batch", "statement": "An adaptation turn of mixture population Monte Carlo is meant to be one step of expectation maximisation on the weighted batch. After a turn that adapts, the log likelihood of the batch under the new mixture, each sample counting with its importance weight (target over previous mixture), is at least what it was under the previous mixture.", "quantifier": "all parameters, targets, batches and reachable states of the sampler", "why_tests_cant": "Whether each of the updates moves the fit upwards for every batch is an inequality about logarithms of sums; a test sees a few batches, where a wrong covariance is hidden by noise.", "anchors": ["ais_benchmarks/sampling_methods/m_pmc.py: CMixturePMC.adapt, importance_sample"]}
{"id": "C92", "title": "The Monte-Carlo integral estimates the integral", "statement": "integral(a, b, nsamples) of a distribution without its own integral method is an unbiased estimate of the probability mass of the box: over the random points and heights its mean is volume times average density, up to the resolution of the random numbers; its mean square error is at most (volume * bound)^2 * 3 / (4 nsamples) plus that resolution, so the chance of an error larger than eps falls like 1 / (nsamples * eps^2). In one dimension the estimated quantity is the integral of the density.", "quantifier": "all non-negative densities bounded on the box, all boxes, all sample counts, all generator resolutions", "why_tests_cant": "The mean and the error probability of a random estimate are statements about all random outcomes at once; a test sees single outcomes and must allow a tolerance that hides a bias.", "anchors": ["ais_benchmarks/distributions/distributions.py: CDistribution.integral"]}
{"id": "C93", "title": "A saved target is loaded back as the same target", "statement": "The dictionary that to_dict() returns for a distribution, used as an entry of a benchmark file, is loaded by the benchmark as a target with the same density, log density, dimension and support, with the saved name and evaluation parameters, and can be saved again.", "quantifier": "all distribution classes, all parameters, all evaluation parameters", "why_tests_cant": "The type name written, the parameters kept, the parameters each constructor insists on and the names bound in the loader must fit for every class; tests would exercise one class and the loader separately.", "anchors": ["ais_benchmarks/distributions/distributions.py: CDistribution.to_dict", "ais_benchmarks/distributions/mixture/CGaussianMixtureModel.py: to_dict, __init__", "ais_benchmarks/benchmark/CBenchmark.py: CBenchmark.load_benchmark"]}
{"id": "C94", "title": "The divergence metrics estimate the divergence", "statement": "compute(p, q, nsamples) of the Kullback-Leibler and Jensen-Shannon metrics is a consistent estimate of the divergence of the two densities: over the random evaluation points its mean square error against the divergence is bounded by a constant over nsamples plus the resolution of the random numbers, whatever the normalisation of the densities.", "quantifier": "all pairs of densities bounded away from zero and infinity on the support of p, all supports of finitely many points, in one dimension all densities of bounded slope; all sample counts and generator resolutions", "why_tests_cant": "The reported number is a non-linear function of random evaluation points; a test sees single outcomes for single pairs and cannot tell a bias from noise, nor see what is never evaluated.", "anchors": ["ais_benchmarks/metrics/divergences.py: CDivergence.compute", "ais_benchmarks/metrics/divergences.py: CKLDivergence.compute_from_samples", "ais_benchmarks/metrics/divergences.py: CJSDivergence.compute_from_samples"]}
{"id": "C95", "title": "Estimates of the population samplers converge", "statement": "importance_sample(target, n) of layered AIS and deterministic mixture AIS gives consistent estimates although the proposals move: the mean square error of the integral estimate is at most a constant over the number of samples, and the chance that the returned samples and normalised weights miss an expectation by more than eps is at most a constant over n. The constants depend only on how well single proposals cover the target.", "quantifier": "all targets, test functions, histories, sample counts, tolerances, all random moves of the proposals; proposals as laws on finitely many cells", "why_tests_cant": "A rate of convergence is a statement about the distribution of the outcome for every n and every target; tests see single runs, and the dependence between batches through the adaptation can hide a bias or an infinite variance.", "anchors": ["ais_benchmarks/sampling_methods/layered_ais.py: CLayeredAIS.importance_sample", "ais_benchmarks/sampling_methods/dm_ais.py: CDeterministicMixtureAIS.importance_sample"]}
{"id": "C96", "title": "Long Metropolis-Hastings runs sample the target", "statement": "The point returned by sample(1) of Metropolis-Hastings follows the target in the limit of a long burn-in, from any starting point: the probability of every set of points differs from its probability under the target by a term decreasing geometrically with the number of steps.", "quantifier": "all targets and proposals on finitely many states in balance with the target, all starting states and burn-in lengths, all numbers of attempts per step", "why_tests_cant": "The law of a point after many steps is not visible in any run; a wrong stationary law looks like an ordinary sample.", "anchors": ["ais_benchmarks/sampling_methods/metropolis_hastings.py: CMetropolisHastings.sample", "ais_benchmarks/sampling_methods/metropolis_hastings.py: CMetropolisHastings.mcmc_step"]}
{"id": "C97", "title": "Proposal centres of layered AIS follow the target", "statement": "The chains that move the proposals of layered AIS have the target as their law: a centre distributed as the target stays so through importance_sample, and from any start the law of a centre approaches the target geometrically with the number of chain steps.", "quantifier": "all targets, boxes, symmetric displacement laws on finitely many points, all histories, calls and numbers of chain steps, all starting centres", "why_tests_cant": "The law of the centres is invisible in a run, and any sequence of centres is possible under many laws.", "anchors": ["ais_benchmarks/sampling_methods/layered_ais.py: CLayeredAIS.mcmc_mh", "ais_benchmarks/sampling_methods/layered_ais.py: CLayeredAIS.resample", "ais_benchmarks/sampling_methods/layered_ais.py: CLayeredAIS.importance_sample"]}
{"id": "C98", "title": "Time limits", "statement": "importance_sample with a time limit begins no further turn once a clock reading has reached the limit, whatever it would have drawn next, and gives up before the requested number of samples only when a reading has reached the limit.", "quantifier": "all samplers with a timeout argument, all targets, histories, limits, clock readings and random outcomes", "why_tests_cant": "Timing and random draws interleave arbitrarily; a test can only try a few clocks.", "anchors": ["ais_benchmarks/sampling_methods/rejection.py: CRejectionSampling.importance_sample", "ais_benchmarks/sampling_methods/dm_ais.py: CDeterministicMixtureAIS.importance_sample", "ais_benchmarks/sampling_methods/layered_ais.py: CLayeredAIS.importance_sample", "ais_benchmarks/sampling_methods/m_pmc.py: CMixturePMC.importance_sample", "ais_benchmarks/sampling_methods/tree_pyramid.py: CTreePyramidSampling.importance_sample", "ais_benchmarks/sampling_methods/metropolis_hastings.py: CMetropolisHastings.importance_sample", "ais_benchmarks/sampling_methods/nested.py: CNestedSampling.importance_sample"]}
{"id": "C99", "title": "Targets defined through a shared generative model", "statement": "An ABC target answers a density query by its own latest observation, the generative model's latest parameters and a simulation at exactly the queried points, whatever calls were made before on it, on its model or on other targets sharing the model; a generative model draws at the points it was last conditioned at; sample(n) of a target returns n simulated observations.", "quantifier": "all interleavings of calls on any number of ABC targets and generative models, all user functions, points, noises", "why_tests_cant": "Objects hold references to each other; only the order of calls decides what a later call sees, and there are unboundedly many orders.", "anchors": ["ais_benchmarks/distributions/derived/CABCDistribution.py: ABCDistribution", "ais_benchmarks/distributions/derived/CGenericNoisyFunction.py: GenericNoisyFunction", "ais_benchmarks/distributions/derived/GenericNuisanceGenModel.py: GenericNuisanceGenModel"]}
{"id": "C100", "title": "Pictures show the latest state of every item", "statement": "After draw_sequence the canvas shows, on top of what it showed before, for every id the latest item of the sequence with this id, complete, and nothing of the items it replaced; every frame of draw_frames shows the static items and the items of that frame only.", "quantifier": "all canvases, all sequences of items with any ids, all frames", "why_tests_cant": "Which artists remain depends on the whole history of ids and artist handles; a picture test would have to look at pixels.", "anchors": ["ais_benchmarks/visualization/matplotlib/viz_interface.py: draw_sequence", "ais_benchmarks/visualization/matplotlib/viz_interface.py: draw_frames", "ais_benchmarks/visualization/matplotlib/viz_interface.py: draw_item"]}
{"id": "C101", "title": "Ticks and labels of an axis", "statement": "Every tick of a drawn axis crosses the axis line at a right angle in its middle, at the tick's value from the start; the default ticks divide the axis evenly; all labels stand off the axis on the same side.", "quantifier": "all axes in the drawing plane, all tick values and sizes", "why_tests_cant": "Real-valued geometry for all directions.", "anchors": ["ais_benchmarks/visualization/matplotlib/viz_interface.py: draw_axis", "ais_benchmarks/visualization/visuals.py: CAxis"]}
{"id": "C102", "title": "Ellipsoids fitted to live points", "statement": "CEllipsoid.fit gives every set of at least d points (coinciding or not) an ellipsoid centred at their mean that can be drawn from and has a positive volume, and refuses fewer; moving the points moves the ellipsoid, and expressing the points in another unit expresses the ellipsoid in that unit: the covariance of its draws is multiplied by c^2 and its volume by |c|^d.", "quantifier": "all finite point sets in any dimension, all shifts, units and inflation factors", "why_tests_cant": "Identities about determinants and moments for all dimensions and point sets; a mis-scaled volume still looks plausible on one data set.", "anchors": ["ais_benchmarks/sampling_methods/multi_nested.py: CEllipsoid.fit", "ais_benchmarks/sampling_methods/multi_nested.py: CEllipsoid.__init__"]}
{"id": "C103", "title": "The replaced live points of nested sampling", "statement": "Each turn of the nested sampler replaces the live point of least likelihood, and no other, by a draw from the proposal around a randomly chosen live point restricted to points at least as likely as the one replaced, found within N + 1 draws with chance 1 - (1 - a)^(N+1) where a is the chance of one proposal; the new point is a draw from the prior restricted in this way, as nested sampling needs for its weights.", "quantifier": "all live points, likelihoods, finite displacement laws, choices of the live point, sets and numbers of draws", "why_tests_cant": "A statement about the law of the outcome of an unbounded loop; tests see single draws.", "anchors": ["ais_benchmarks/sampling_methods/nested.py: CNestedSampling.resample", "ais_benchmarks/sampling_methods/nested.py: CNestedSampling.importance_sample"]}
{"id": "C104", "title": "A dictionary of parameters used for several objects", "statement": "A dictionary of parameters can be used to build several distribution objects: a constructor writes at most the entries type, family, likelihood_f, loglikelihood_f, dims and support, never an array of the caller; building again from the unchanged dictionary gives an object that behaves the same and leaves the first as it was; building again after assigning entries anew gives what a dictionary no constructor has seen would give; and an object is not changed when the caller edits arrays it was built from. A sampler has the name given in its own parameters.", "quantifier": "all dictionaries, arrays, sequences of assignments and in-place edits, classes normal, exponential, uniform and delta", "why_tests_cant": "Tests build objects from fresh literals; the fault shows in a second object built from the same dictionary, or after an edit elsewhere in the program.", "anchors": ["ais_benchmarks/distributions/parametric/CMultivariateNormal.py: CMultivariateNormal.__init__", "ais_benchmarks/distributions/parametric/CMultivariateExponential.py: CMultivariateExponential.__init__", "ais_benchmarks/distributions/parametric/CMultivariateUniform.py: CMultivariateUniform.__init__", "ais_benchmarks/distributions/parametric/CMultivariateDelta.py: CMultivariateDelta.__init__", "ais_benchmarks/distributions/distributions.py: CDistribution.__init__", "ais_benchmarks/sampling_methods/metropolis_hastings.py: CMetropolisHastings.__init__", "ais_benchmarks/sampling_methods/tree_pyramid.py: CTreePyramidSampling.__init__"]}
{"id": "C105", "title": "Estimates of the leaf-resampled tree sampler converge", "statement": "With leaf resampling, a uniform kernel, one sample per leaf and an effective sample size target above one, the tree sampler refines evenly: on a target with values between m > 0 and M the volumes of any two leaves differ at most by the factor 2^d sqrt(M/m), so every leaf shrinks as the number of samples grows. A weighted mean of a function computed from the returned samples and weights therefore differs from its integral under the normalised target by at most (side of a leaf)(Lipschitz constants)/m, for every sequence of random draws: the estimate converges surely, not only in probability.", "quantifier": "all boxes that are cubes, dimensions, targets and functions with Lipschitz constants, earlier calls, draws, numbers of leaves split per turn and tolerances", "why_tests_cant": "Convergence is a statement about all sample sizes and all random draws; a test sees a few runs with a tolerance wide enough to hide an estimator that settles at a wrong value.", "anchors": ["ais_benchmarks/sampling_methods/tree_pyramid.py: CTreePyramidSampling.importance_sample", "ais_benchmarks/sampling_methods/tree_pyramid.py: CTreePyramidSampling.expand_nodes", "ais_benchmarks/sampling_methods/tree_pyramid.py: CTreePyramidSampling.resample", "ais_benchmarks/sampling_methods/tree_pyramid.py: CTreePyramid.expand"]}
{"id": "C106", "title": "Targets known up to a constant", "statement": "Sampling methods are used with unnormalised densities. If the target density is multiplied by a positive constant and the random draws are the same, then Metropolis-Hastings, nested, multi-nested, DM-AIS, LAIS and M-PMC return the same samples, the same weights and the same counters, after every sequence of calls. Rejection sampling does if its scaling is multiplied by the same constant, and the tree sampler does with leaf resampling, the simple flow and an effective sample size target above one. It is false of rejection sampling with a fixed scaling, of the tree sampler with several samples per leaf (the target 0.9 of the shipped configuration) and of HiDaisee, whose optimism boost is added to unscaled mean weights.", "quantifier": "all sampler parameters, positive constants, targets, histories of calls, samples, queries and resets, draws and clock readings; all positive constants per call for Metropolis-Hastings, M-PMC and the tree sampler", "why_tests_cant": "Invariance is a relation between two executions for every constant and history; a test compares a few constants, and random draws rarely meet the branch where a fixed bound or an unnormalised weight decides.", "anchors": ["ais_benchmarks/sampling_methods/metropolis_hastings.py: CMetropolisHastings.mcmc_step", "ais_benchmarks/sampling_methods/rejection.py: CRejectionSampling.importance_sample", "ais_benchmarks/sampling_methods/nested.py: CNestedSampling.importance_sample", "ais_benchmarks/sampling_methods/multi_nested.py: CMultiNestedSampling.importance_sample", "ais_benchmarks/sampling_methods/dm_ais.py: CDeterministicMixtureAIS.importance_sample", "ais_benchmarks/sampling_methods/layered_ais.py: CLayeredAIS.importance_sample", "ais_benchmarks/sampling_methods/m_pmc.py: CMixturePMC.importance_sample", "ais_benchmarks/sampling_methods/tree_pyramid.py: CTreePyramidSampling.importance_sample", "ais_benchmarks/sampling_methods/hi_daisee.py: CHiDaiseeSampling.importance_sample"]}
{"id": "C107", "title": "Requests in instalments", "statement": "The benchmark asks one sampler object for more and more samples. A request for n1 samples followed by a request for n2 on the same object gives what a single request for n2 gives, the random events and the target being the same and the requests not running into their time limits: for DM-AIS, LAIS, M-PMC and Metropolis-Hastings the whole state, for HiDaisee too while no call failed, for nested sampling everything but the evaluation counter (which is larger by the number of live points per extra call), for the tree sampler with the simple flow the samples, weights, nodes and counters when leaves are resampled or the effective sample size target is at most one. It is false of the tree sampler with a target above one and no resampling (other weights), of its mixture flow (another number of draws), of multi-nested sampling (other samples) and of the counters of rejection sampling.", "quantifier": "all sampler parameters, targets, states (reachable ones for HiDaisee and the tree sampler), request sizes n1 <= n2, draws and clock readings", "why_tests_cant": "It relates three executions for every state and every split of a request; seeded tests compare single runs, and the two ways consume the random stream differently as soon as one call draws something extra.", "anchors": ["ais_benchmarks/sampling_methods/dm_ais.py: CDeterministicMixtureAIS.importance_sample", "ais_benchmarks/sampling_methods/layered_ais.py: CLayeredAIS.importance_sample", "ais_benchmarks/sampling_methods/m_pmc.py: CMixturePMC.importance_sample", "ais_benchmarks/sampling_methods/metropolis_hastings.py: CMetropolisHastings.importance_sample", "ais_benchmarks/sampling_methods/nested.py: CNestedSampling.importance_sample", "ais_benchmarks/sampling_methods/multi_nested.py: CMultiNestedSampling.importance_sample", "ais_benchmarks/sampling_methods/hi_daisee.py: CHiDaiseeSampling.importance_sample", "ais_benchmarks/sampling_methods/tree_pyramid.py: CTreePyramidSampling.importance_sample", "ais_benchmarks/sampling_methods/rejection.py: CRejectionSampling.importance_sample", "ais_benchmarks/benchmark/CBenchmark.py: CBenchmark.evaluate_method"]}
{"id": "C108", "title": "Draws of a mixture follow the mixture", "statement": "sample(n) of a mixture with weights of total one returns n independent draws of the mixture: a component is chosen with probability its weight and drawn from, so the expected value of every function of the returned rows is that of n independent draws. The density those draws have is the one prob() reports. After a turn of DM-AIS the centres of the proposals are independent draws of the batch, each sample chosen with probability proportional to its importance weight, so that they represent the batch without bias. After a call of the tree sampler (simple flow, uniform kernel, positive target) the expected number of the draws of sample(m) inside a leaf is m times the mass that prob() puts on the leaf; likewise for HiDaisee with non-negative targets and a sample of positive weight.", "quantifier": "all numbers and weights of components, all finite component laws, all numbers of draws, all functions of the outcome; all DM-AIS states and batches with a sample of positive target; all histories of the tree sampler with positive targets and of HiDaisee with non-negative ones", "why_tests_cant": "It is a statement about joint laws of random outcomes for every weight vector; a test can only compare frequencies of one mixture with a tolerance, which does not separate a selector that is slightly wrong or draws that are dependent.", "anchors": ["ais_benchmarks/distributions/mixture/CMixtureModel.py: CMixtureModel.sample", "ais_benchmarks/distributions/mixture/CMixtureModel.py: CMixtureModel.prob", "ais_benchmarks/sampling_methods/dm_ais.py: CDeterministicMixtureAIS.resample", "ais_benchmarks/sampling_methods/base.py: CMixtureSamplingMethod.sample", "ais_benchmarks/sampling_methods/tree_pyramid.py: CTreePyramidSampling._update_model", "ais_benchmarks/sampling_methods/hi_daisee.py: CHiDaiseeSampling._update_model"]}
{"id": "C109", "title": "Change of origin and units", "statement": "A user who writes the problem in other coordinates, x -> a*x + b with a > 0 (another unit of length and another origin), with the box, the proposals and the target density converted accordingly, gets the same samples in the new coordinates: the same points, the same importance weights and the same counters. It holds for Metropolis-Hastings, rejection, nested, DM-AIS, layered AIS and HiDaisee, and for tree pyramids with the uniform kernel. Tree pyramids with the normal kernel, M-PMC and multi-nested sampling are unaffected by the origin but not by the unit: the radius of a tree cell divided by four is used as a covariance, a covariance entry above 10 is replaced by 10 (whatever the unit), and groups of live points closer than 0.2 are not told apart.", "quantifier": "all a > 0 and b, all boxes, targets, proposals, random outcomes, clocks and histories of operations, including operations that raised", "why_tests_cant": "It relates two runs for every pair of coordinate systems and every history; a test compares one run with one converted run, and hard-wired length scales only show when a number happens to cross them.", "anchors": ["ais_benchmarks/sampling_methods/metropolis_hastings.py: CMetropolisHastings.importance_sample", "ais_benchmarks/sampling_methods/rejection.py: CRejectionSampling.importance_sample", "ais_benchmarks/sampling_methods/nested.py: CNestedSampling.importance_sample", "ais_benchmarks/sampling_methods/multi_nested.py: CMultiNestedSampling.recursive_clustering", "ais_benchmarks/sampling_methods/dm_ais.py: CDeterministicMixtureAIS.importance_sample", "ais_benchmarks/sampling_methods/layered_ais.py: CLayeredAIS.importance_sample", "ais_benchmarks/sampling_methods/m_pmc.py: CMixturePMC.adapt", "ais_benchmarks/sampling_methods/tree_pyramid.py: CTreePyramidSampling.importance_sample", "ais_benchmarks/sampling_methods/hi_daisee.py: CHiDaiseeSampling.importance_sample"]}
{"id": "C110", "title": "Arrays handed out belong to the caller", "statement": "The arrays of samples and weights returned by importance_sample and sample stay as they are when the sampler is used further, and a caller who overwrites rows of them does not disturb the sampler: later answers are the same as if nothing had been overwritten. Of the code only the tree samplers and HiDaisee have both parts. The other samplers return self.samples itself. After a request for one sample, nested and multi-nested sampling return a view of a live point, which the next call overwrites. Overwriting the array returned by rejection sampling, LAIS or M-PMC changes the rows returned again later but no new row; with DM-PMC, Metropolis-Hastings and nested sampling it moves the proposal means, the chain, the live points.", "quantifier": "all histories of calls, draws, resets and assignments by the caller, all batches, weights and adaptations, calls that raise included", "why_tests_cant": "Whether two arrays share memory depends on the whole history (the first batch is shared, later ones are copied); a test sees one history and compares values that are usually equal anyway.", "anchors": ["ais_benchmarks/sampling_methods/base.py: CSamplingMethod", "ais_benchmarks/sampling_methods/rejection.py: CRejectionSampling.importance_sample", "ais_benchmarks/sampling_methods/metropolis_hastings.py: CMetropolisHastings.mcmc", "ais_benchmarks/sampling_methods/dm_ais.py: CDeterministicMixtureAIS.resample", "ais_benchmarks/sampling_methods/layered_ais.py: CLayeredAIS.importance_sample", "ais_benchmarks/sampling_methods/m_pmc.py: CMixturePMC.importance_sample", "ais_benchmarks/sampling_methods/nested.py: CNestedSampling.importance_sample", "ais_benchmarks/sampling_methods/tree_pyramid.py: CTreePyramidSampling._get_samples", "ais_benchmarks/sampling_methods/hi_daisee.py: CHiDaiseeSampling._get_samples"]}
{"id": "C111", "title": "Order of points, samples and components", "statement": "Results that are sums over a set do not depend on the order of its elements: the Kullback-Leibler and Jensen-Shannon metrics (order of the evaluation points, undefined and infinite densities included), the expected value error (samples with their densities), the effective sample size from the weights, and the density and log density of a mixture (components with their weights, unusable weights included). The effective sample size computed from autocorrelations is about the sequence and does depend on the order.", "quantifier": "all reorderings of all finite sets of points, samples or components, with every float value including NaN and the infinities", "why_tests_cant": "There are n! orders, and the outliers, NaN and infinite entries that could break the symmetry are rare; a test compares a few orders of ordinary values.", "anchors": ["ais_benchmarks/metrics/divergences.py: CKLDivergence.compute_from_log_probs", "ais_benchmarks/metrics/divergences.py: CJSDivergence.compute_from_samples", "ais_benchmarks/metrics/statistics.py: CExpectedValueMSE.compute_from_samples", "ais_benchmarks/sampling_methods/base.py: CSamplingMethod.get_approx_NESS", "ais_benchmarks/sampling_methods/base.py: CSamplingMethod.get_NESS", "ais_benchmarks/distributions/mixture/CMixtureModel.py: CMixtureModel.prob"]}
{"id": "C112", "title": "The rejection method of the shipped configuration", "statement": "The rejection sampler that the shipped methods file configures (a uniform proposal of the width of the target's support, scaling 1) gives draws of the target it is built for: it can return every point of the support, and the accepted points have the law of the normalised target.", "quantifier": "every support box of every dimension, every history of the sampler, every non-negative target in cells of every fineness, every number of offers; the law of the accepted points also for every proposal and scaling", "why_tests_cant": "Both failures are silent: the sampler returns the requested number of plausible points, and the law of random points cannot be read off a finite sample; where the proposal box misses the support nothing is ever drawn.", "anchors": ["ais_benchmarks/benchmark/def_methods.yaml: rejection", "ais_benchmarks/sampling_methods/rejection.py: CRejectionSampling.importance_sample", "ais_benchmarks/benchmark/CBenchmark.py: CBenchmark.load_methods", "ais_benchmarks/distributions/parametric/CMultivariateUniform.py: CMultivariateUniform"]}
{"id": "C113", "title": "Order of the coordinate axes", "statement": "Metropolis-Hastings, rejection, nested, multi-nested, DM-AIS, layered AIS, M-PMC and HiDaisee treat all coordinates alike: a user who lists the coordinate axes in another order, in the target, the box, the proposals and the random draws, gets the same samples (for M-PMC also means and covariances, for HiDaisee also the reported density) with their coordinates in that order, the same weights, the same exceptions and the same counts.", "quantifier": "every dimension, every reordering of the axes (for all but multi-nested, M-PMC and HiDaisee also leaving out axes on which nothing depends), every history of operations, all random draws and clocks", "why_tests_cant": "The dimensions, the reorderings and the histories are unboundedly many, and a coordinate treated differently (a bound or an index of another axis) shows only for particular boxes and targets.", "anchors": ["ais_benchmarks/sampling_methods/metropolis_hastings.py: CMetropolisHastings", "ais_benchmarks/sampling_methods/rejection.py: CRejectionSampling", "ais_benchmarks/sampling_methods/nested.py: CNestedSampling", "ais_benchmarks/sampling_methods/multi_nested.py: CMultiNestedSampling", "ais_benchmarks/sampling_methods/dm_ais.py: CDeterministicMixtureAIS", "ais_benchmarks/sampling_methods/layered_ais.py: CLayeredAIS", "ais_benchmarks/sampling_methods/m_pmc.py: CMixturePMC", "ais_benchmarks/sampling_methods/hi_daisee.py: CHiDaiseeSampling"]}
{"id": "C114", "title": "Plots of densities", "statement": "The pictures of densities are right: a contour picture of a two-dimensional density shows at every grid point the density there, with the axes the right way round, and has fifteen equally spaced levels, all of them between two values of the picture; nothing is drawn exactly when the density is the same everywhere on the grid. A one-dimensional curve consists of points of the graph within the limits, reaches both limits when at least two steps fit, and drawing a distribution shows the whole support. The dashed curves of the components of a sampler's proposal add up to the curve of its density. The debug picture of the benchmark shows the target.", "quantifier": "all boxes, resolutions, scales, densities, mixtures and weights", "why_tests_cant": "Densities, boxes and resolutions are unbounded, and a transposed or misplaced picture looks plausible for symmetric densities and square boxes.", "anchors": ["ais_benchmarks/utils/plot_utils.py: plot_pdf, plot_grid_sampled_pdfs, plot_pdf2d", "ais_benchmarks/distributions/distributions.py: CDistribution.draw", "ais_benchmarks/sampling_methods/base.py: draw1d", "ais_benchmarks/benchmark/CBenchmark.py: debug contours"]}
{"id": "C115", "title": "Pictures of the samplers", "statement": "The pictures of the samplers that the benchmark shows in debug mode describe their state: in two dimensions the tree sampler draws one rectangle for every leaf and these pave the square of the root, and HiDaisee's rectangles cut up the space, after every history; the mixture samplers draw a line for every sample with its weight, and Metropolis-Hastings draws its proposal where the chain is, even after calls that ran out of time. Drawing works at any time.", "quantifier": "every history of operations, all boxes, targets, random draws and clocks", "why_tests_cant": "The histories are unbounded; a picture off by a factor or showing an older position cannot be told from a right one by looking at a few examples.", "anchors": ["ais_benchmarks/sampling_methods/tree_pyramid.py: draw_2d_tree", "ais_benchmarks/sampling_methods/hi_daisee.py: draw_2d_tree", "ais_benchmarks/sampling_methods/base.py: draw1d, draw2d", "ais_benchmarks/sampling_methods/metropolis_hastings.py: draw1d, draw2d"]}
{"id": "C116", "title": "Nonparametric densities", "statement": "A nearest-neighbour distribution can be built from samples and weights; its density at a point is the weight of the nearest sample, and sample(n) returns n of the samples. A kernel density estimate can be built from samples, weights and a kernel.", "quantifier": "all samples, weights, query points, requests and outcomes of the multinomial draw", "why_tests_cant": "Samples, points and requests are unbounded, and the distributions appear to work when the file is run as a program because the module then happens to define the variable that the constructor uses.", "anchors": ["ais_benchmarks/distributions/nonparametric/CNearestNeighbor.py: CNearestNeighbor", "ais_benchmarks/distributions/nonparametric/CKernelDensity.py: CKernelDensity"]}
{"id": "C117", "title": "Estimates of the tree sampler without resampling converge", "statement": "Without leaf resampling, with a uniform kernel, one sample per leaf and an effective sample size target above one, the tree sampler keeps exploring the whole box: every leaf shrinks as the number of samples grows, whatever the target. A weighted mean computed from the samples and weights that any call returns differs from its integral under the normalised target by at most (side of a leaf)(Lipschitz constants)/m, for every sequence of draws.", "quantifier": "all boxes that are cubes, dimensions, targets and functions with Lipschitz constants, earlier calls, draws, numbers of leaves split per turn and tolerances", "why_tests_cant": "Exploration and convergence are statements about all sample sizes and all draws. A region that is never visited again and weights normalised at different times leave every returned array well formed.", "anchors": ["ais_benchmarks/sampling_methods/tree_pyramid.py: CTreePyramidSampling.importance_sample", "ais_benchmarks/sampling_methods/tree_pyramid.py: CTreePyramidSampling.expand_nodes", "ais_benchmarks/sampling_methods/tree_pyramid.py: CTreePyramidSampling._update_model", "ais_benchmarks/sampling_methods/tree_pyramid.py: CTreePyramid.expand"]}
{"id": "C118", "title": "On a constant target nothing is refused and all points are renewed", "statement": "On a target that is constant on the space, the accept/reject methods accept everything: Metropolis-Hastings with a symmetric proposal labels no trajectory point as rejected, every step of the chains of layered AIS is taken, rejection sampling whose scaled proposal equals the target returns after one turn with all points drawn, and nested sampling uses one draw and one evaluation per new sample. Nested sampling goes on renewing its live points.", "quantifier": "all boxes and dimensions, earlier calls, numbers of samples, displacements, uniform draws below one, constants, time budgets", "why_tests_cant": "With equal target values, comparisons that should be strict or non-strict, and the choice among equal minima, decide the outcome. Tests on smooth targets never produce ties, and a run on a uniform target returns arrays of the right shape even if most live points never move.", "anchors": ["ais_benchmarks/sampling_methods/metropolis_hastings.py: CMetropolisHastings.mcmc_step", "ais_benchmarks/sampling_methods/layered_ais.py: CLayeredAIS.mcmc_mh", "ais_benchmarks/sampling_methods/rejection.py: CRejectionSampling.importance_sample", "ais_benchmarks/sampling_methods/nested.py: CNestedSampling.importance_sample", "ais_benchmarks/sampling_methods/nested.py: CNestedSampling.resample"]}
{"id": "C119", "title": "Recorded videos show what was drawn", "statement": "The file that the video writer saves has one picture per figure added, in order, each with the size and the colours of its figure; showing the recording displays the last figure with its size and colours; saving or showing an empty recording is refused with a clear error or does nothing.", "quantifier": "all sequences of figures, all sizes and pixel values, all recordings including the empty one", "why_tests_cant": "A wrong order of height and width or of the colour channels gives a file of the right length that opens without an error. Tests use one square figure, for which exchanged sizes agree, and never resize a window while recording.", "anchors": ["ais_benchmarks/utils/video_writer.py: CVideoWriter.add_frame", "ais_benchmarks/utils/video_writer.py: CVideoWriter.save", "ais_benchmarks/utils/video_writer.py: CVideoWriter.show"]}
{"id": "C120", "title": "The command-line programs use the files named and keep former results", "statement": "The benchmark program reads the benchmark, methods and configuration files given on its command line, in the documented form too, and writes one file: a header line and then the rows of all targets in order; an exception keeps the rows written so far and touches no other file. A run that fails while loading its files leaves former results as they were. The plots program shows the results that the benchmark program wrote.", "quantifier": "all file systems, working directories, relative and absolute arguments, configurations, numbers of targets, evaluations with and without exceptions", "why_tests_cant": "The programs never complain: with a wrong number of arguments they run the shipped benchmark, and the plots program finds its table if the developer happens to start it in the right directory. Tests call CBenchmark.run in an empty directory with all four files given.", "anchors": ["ais_benchmarks/benchmark/run_benchmark.py: command line", "ais_benchmarks/benchmark/run_plots.py: command line", "ais_benchmarks/benchmark/CBenchmark.py: CBenchmark.run", "ais_benchmarks/benchmark/CBenchmark.py: CBenchmark._check_make_paths", "ais_benchmarks/benchmark/CBenchmark.py: CBenchmark.write_results", "ais_benchmarks/benchmark/CBenchmark.py: CBenchmark.make_plots", "README.md: benchmark execution"]}
{"id": "C121", "title": "One mixture written in several ways", "statement": "Two lists of weights and components that mean the same mixture give the same object: reported densities and log densities agree at every point, and everything computed from sample(n) has the same expected value. Lists mean the same when they differ by the order, by the unit of the weights, by components without a usable weight, by using a component several times with parts of its weight, or by listing the parts of a component that is itself a mixture.", "quantifier": "all components and weights including NaN, negative and zero ones, all chains of such rewritings, all batches, all numbers of draws", "why_tests_cant": "A test compares a few written-out mixtures. Whether zeroing, normalising, multiplying with exp(log density) and selecting by trials respects every rewriting, for any nesting, is an algebraic fact about all lists, and the exception needs a component that is infinite at one point and has weight zero.", "anchors": ["ais_benchmarks/distributions/mixture/CMixtureModel.py: CMixtureModel.set_weights", "ais_benchmarks/distributions/mixture/CMixtureModel.py: CMixtureModel.prob", "ais_benchmarks/distributions/mixture/CMixtureModel.py: CMixtureModel.log_prob", "ais_benchmarks/distributions/mixture/CMixtureModel.py: CMixtureModel.sample", "ais_benchmarks/distributions/parametric/CMultivariateDelta.py: CMultivariateDelta.log_prob"]}
{"id": "C122", "title": "Parameters of the sampling methods", "statement": "A sampling method can be built from a dictionary with the parameters that its documentation lists, the constructor leaves the caller's dictionary as it was, and the configurations shipped with the project (def_methods.yaml, the README, the animations) build their methods in every box.", "quantifier": "all nine sampling methods, all dictionaries and values, all dimensions of the box", "why_tests_cant": "A test builds a method from one complete dictionary. Which entries are needed, whether the documented ones are enough and what is written into the caller's dictionary are statements about all dictionaries.", "anchors": ["ais_benchmarks/sampling_methods/base.py: CSamplingMethod.__init__", "ais_benchmarks/sampling_methods/base.py: CMixtureISSamplingMethod.__init__", "ais_benchmarks/sampling_methods/metropolis_hastings.py: CMetropolisHastings.__init__", "ais_benchmarks/sampling_methods/multi_nested.py: CMultiNestedSampling.__init__", "ais_benchmarks/sampling_methods/tree_pyramid.py: CTreePyramidSampling.__init__", "ais_benchmarks/sampling_methods/hi_daisee.py: CHiDaiseeSampling.__init__", "ais_benchmarks/benchmark/CBenchmark.py: CBenchmark.load_methods"]}
{"id": "C123", "title": "Estimates of nested sampling converge", "statement": "The weighted mean of a function over the samples returned by nested sampling tends to its mean under the target as more samples are asked for; no single sample keeps a fixed share of the weight.", "quantifier": "all histories of calls, targets, numbers of samples and live points, bounded functions", "why_tests_cant": "Convergence is about runs of every length. A test of one length cannot tell a share that stays from one that is still falling.", "anchors": ["ais_benchmarks/sampling_methods/nested.py: CNestedSampling.importance_sample", "ais_benchmarks/sampling_methods/multi_nested.py: CMultiNestedSampling.importance_sample"]}
{"id": "C124", "title": "The density model is on average the estimate with the returned weights", "statement": "The model that the sample-based methods build for sample(), prob() and log_prob() after importance_sample, averaged over the random choice of its centres, has at every point the kernel density of the returned samples with the returned weights; the choice changes neither samples nor weights.", "quantifier": "all states, targets, tapes of random events, numbers of kernels and all kernels", "why_tests_cant": "The choice of the centres is random. Only the average over all n^k choices tells an unbiased subsample from a biased one, and a kernel may hide the difference at the points tested.", "anchors": ["ais_benchmarks/sampling_methods/base.py: CMixtureSamplingMethod._update_model", "ais_benchmarks/sampling_methods/rejection.py: CRejectionSampling.importance_sample", "ais_benchmarks/sampling_methods/nested.py: CNestedSampling.importance_sample"]}
{"id": "C125", "title": "The effective sample size of nested sampling is bounded by its live points", "statement": "With N live points and likelihoods between a > 0 and b, get_NESS of nested and multi-nested sampling times the number of samples never exceeds (N + 1) exp(2 b / a), however many samples are asked for; so get_NESS falls below every positive number, at a rate that only N and b / a determine.", "quantifier": "all histories of calls on either sampler, all targets with likelihoods in a positive range, every number of samples", "why_tests_cant": "A bound for every number of samples; the first few hundred samples of a test look as if the effective size kept growing.", "anchors": ["ais_benchmarks/sampling_methods/nested.py: CNestedSampling.get_NESS", "ais_benchmarks/sampling_methods/multi_nested.py: CMultiNestedSampling.get_NESS"]}
{"id": "C126", "title": "Samples that count lie where the target is positive", "statement": "No sampler reports a sample that counts where the target density is zero: every sample of Metropolis-Hastings has a log density that is neither minus infinity nor NaN, a sample of nested or multi-nested sampling with a positive weight has a positive density, a sample of rejection sampling has a positive density, and the weights of DM, layered sampling, M-PMC, HiDaisee and the tree sampler are positive exactly where the target is.", "quantifier": "all histories, targets, starts, proposal densities, random draws and clock readings", "why_tests_cant": "The offending samples appear only when a search is cut off by the clock, which no test of ordinary length triggers.", "anchors": ["ais_benchmarks/sampling_methods/metropolis_hastings.py: CMetropolisHastings.importance_sample", "ais_benchmarks/sampling_methods/metropolis_hastings.py: CMetropolisHastings.mcmc_step", "ais_benchmarks/sampling_methods/nested.py: CNestedSampling.importance_sample", "ais_benchmarks/sampling_methods/multi_nested.py: CMultiNestedSampling.importance_sample", "ais_benchmarks/sampling_methods/dm_ais.py: CDeterministicMixtureAIS.importance_sample", "ais_benchmarks/sampling_methods/layered_ais.py: CLayeredAIS.importance_sample", "ais_benchmarks/sampling_methods/rejection.py: CRejectionSampling.importance_sample", "ais_benchmarks/sampling_methods/hi_daisee.py: CHiDaiseeSampling.importance_sample", "ais_benchmarks/sampling_methods/tree_pyramid.py: CTreePyramidSampling.importance_sample", "ais_benchmarks/sampling_methods/m_pmc.py: CMixturePMC.importance_sample"]}
{"id": "C127", "title": "A benchmark density integrates to one over its support", "statement": "The definite integral of prob over support() is one for each of the benchmark densities (uniform, exponential, Maxwell, Laplace, symmetric Pareto), as the description of the base class promises.", "quantifier": "all points of the declared supports (an integral)", "why_tests_cant": "An integral of the reported density over the declared range; tests evaluate the density at points and never compare it with the support.", "anchors": ["ais_benchmarks/distributions/benchden/d02_exponential.py: BenchDenExponential", "ais_benchmarks/distributions/benchden/d03_maxwell.py: BenchDenMaxwell", "ais_benchmarks/distributions/benchden/d04_laplace.py: BenchDenLaplace", "ais_benchmarks/distributions/benchden/d10_symmetric_pareto.py: BenchDenSymmetricPareto", "ais_benchmarks/distributions/distributions.py: CDistribution.support"]}
{"id": "C128", "title": "A target that is zero everywhere yields no positive weight", "statement": "When the target density is zero at every point, no call of importance_sample returns a sample with a positive weight: it goes on, raises, or returns weights that are NaN or zero.", "quantifier": "all histories of calls, draws, sizes and clocks", "why_tests_cant": "A statement about every run of eight samplers on a degenerate target; a run that never ends or fails only by the clock cannot be tested.", "anchors": ["ais_benchmarks/sampling_methods/rejection.py: CRejectionSampling.importance_sample", "ais_benchmarks/sampling_methods/dm_ais.py: CDeterministicMixtureAIS.importance_sample", "ais_benchmarks/sampling_methods/layered_ais.py: CLayeredAIS.importance_sample", "ais_benchmarks/sampling_methods/nested.py: CNestedSampling.importance_sample", "ais_benchmarks/sampling_methods/multi_nested.py: CMultiNestedSampling.importance_sample", "ais_benchmarks/sampling_methods/hi_daisee.py: CHiDaiseeSampling.importance_sample", "ais_benchmarks/sampling_methods/metropolis_hastings.py: CMetropolisHastings.importance_sample", "ais_benchmarks/sampling_methods/m_pmc.py: CMixturePMC.importance_sample"]}
{"id": "C129", "title": "More time, a larger request or an easier target never give fewer samples", "statement": "On the same object, with the same random draws and clock readings: rejection sampling holds at least as many samples for a larger target, a smaller scaling, a longer time limit or a larger request; for a larger target or a smaller scaling it returns whenever it returned before, with counters that are not larger. For DM, layered sampling and M-PMC a larger request or a longer time limit only adds samples and weights after those of the smaller one; for nested sampling a larger request adds samples and likelihoods after those of the smaller one.", "quantifier": "all objects, targets, proposals, scalings, requests, time limits, draws in the unit interval and clock readings", "why_tests_cant": "Compares two runs on the same random numbers; tests compare runs with different numbers, where only averages can be compared.", "anchors": ["ais_benchmarks/sampling_methods/rejection.py: CRejectionSampling.importance_sample", "ais_benchmarks/sampling_methods/dm_ais.py: CDeterministicMixtureAIS.importance_sample", "ais_benchmarks/sampling_methods/layered_ais.py: CLayeredAIS.importance_sample", "ais_benchmarks/sampling_methods/m_pmc.py: CMixturePMC.importance_sample", "ais_benchmarks/sampling_methods/nested.py: CNestedSampling.importance_sample"]}
{"id": "C130", "title": "A sampler knows the target only through its values at the points it evaluated", "statement": "On the same object, with the same random draws and clock readings, two targets that have the same values at the points where the target was evaluated give the same call: the same samples, weights, counters and the same way of ending, whatever the two targets are elsewhere. The points are: the points drawn for rejection sampling; the live points and the points drawn for nested and multi-nested sampling; the starting point and the trajectory for Metropolis-Hastings; the samples of the object for DM, M-PMC and HiDaisee (when the call returns); the samples and the sampling space, in which the proposal centres walk, for layered sampling.", "quantifier": "all objects, pairs of targets, requests, time limits, draws and clock readings", "why_tests_cant": "Speaks about every pair of targets that differ only at points not looked at; a test runs one target at a time and cannot tell which points influenced the result.", "anchors": ["ais_benchmarks/sampling_methods/rejection.py: CRejectionSampling.importance_sample", "ais_benchmarks/sampling_methods/nested.py: CNestedSampling.importance_sample", "ais_benchmarks/sampling_methods/multi_nested.py: CMultiNestedSampling.importance_sample", "ais_benchmarks/sampling_methods/metropolis_hastings.py: CMetropolisHastings.importance_sample", "ais_benchmarks/sampling_methods/dm_ais.py: CDeterministicMixtureAIS.importance_sample", "ais_benchmarks/sampling_methods/m_pmc.py: CMixturePMC.importance_sample", "ais_benchmarks/sampling_methods/hi_daisee.py: CHiDaiseeSampling.importance_sample", "ais_benchmarks/sampling_methods/layered_ais.py: CLayeredAIS.importance_sample"]}
