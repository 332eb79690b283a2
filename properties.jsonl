{"id": "C01", "title": "Log-likelihood does not depend on how events are bucketed and padded", "statement": "The log-posterior returned by the flowMC Poisson likelihood for a catalogue stored in zero-padded, masked buckets equals log prior + sum over events of logsumexp over that event's own posterior samples of (log model - log reference prior) + constants - expected count. It is the same number for every number of buckets, every assignment of events to buckets, every padding length and every padding value.", "quantifier": "all catalogues (any number of events, any number of samples per event), all bucketings and padding values, all model log-densities including -inf, +inf and NaN values", "why_tests_cant": "A test fixes one catalogue and one bucketing; the claim is about every partition and every padding content.", "anchors": ["src/gwkokab/inference/poissonlikelihood_flowMC.py: flowMC_poisson_likelihood", "src/gwkanal/utils/jenks.py: pad_and_stack"]}
{"id": "C02", "title": "Bucketing posterior samples loses and duplicates nothing", "statement": "For parallel lists of per-event arrays, pad_and_stack returns buckets such that removing the masked padding rows and reading the buckets in order gives exactly the input events sorted by size: each event exactly once, all its rows in order, aligned across all the parallel lists, and each mask row counts exactly the rows of its event.", "quantifier": "all catalogues, all requested bucket counts and thresholds, every non-decreasing list of break values the Jenks library may return", "why_tests_cant": "The set of inputs and of break points chosen by the external library is unbounded.", "anchors": ["src/gwkanal/utils/jenks.py: pad_and_stack, _partition_data, _get_subsets, _jenks_natural_breaks, _pad_and_stack_bucket, _bucket_mask"]}
{"id": "C03", "title": "Streaming Monte-Carlo estimate equals the one-shot estimate", "statement": "Combining the running (log estimate, squared error, count) of the samples seen so far with that of a fresh batch gives exactly the log estimate and squared error that would be computed at once from all samples together. Hence after any number of batches the running values are those of the concatenated sample.", "quantifier": "all non-empty sample lists of at least two samples, finite or -inf log densities (not all -inf), any number and sizes of batches", "why_tests_cant": "Needs an algebraic identity over all histories of batches.", "anchors": ["src/gwkokab/inference/analyticallikelihood.py: monte_carlo_log_estimate_and_error_sq, combine_monte_carlo_log_estimates, combine_monte_carlo_errors"]}
{"id": "C04", "title": "Monte-Carlo squared error is a valid variance", "statement": "The squared error returned with a Monte-Carlo estimate is the sample variance of the weights divided by the number of samples; it is never negative and is zero exactly when all the weights are equal.", "quantifier": "all sample lists with at least two elements", "why_tests_cant": "Non-negativity for every sample is Cauchy-Schwarz, not a finite check.", "anchors": ["src/gwkokab/inference/analyticallikelihood.py: monte_carlo_log_estimate_and_error_sq"]}
{"id": "C05", "title": "The adaptive Monte-Carlo loop stops only when the requested accuracy is reached", "statement": "The per-event sampling loop of the analytical likelihood draws further batches until the squared error is no larger than the requested minimum error or the step budget is used up.", "quantifier": "all batch histories, all thresholds and step budgets", "why_tests_cant": "A claim on every random history of the loop.", "anchors": ["src/gwkokab/inference/analyticallikelihood.py: analytical_likelihood (while loop)"]}
{"id": "C06", "title": "Posterior value handed to the sampler is finite or -inf", "statement": "For every parameter vector, whatever the model, the prior, the expected-rate estimator and the user where-functions return (including NaN and +inf), the flowMC and the analytical log-posteriors return a finite number or -inf; never NaN and never +inf. With where-functions the value is -inf whenever the vector is outside the prior support, fails a where-function or has a non-finite entry.", "quantifier": "all parameter vectors, all models, priors, where-functions and data", "why_tests_cant": "NaN propagation paths are unbounded; a test only visits some of them.", "anchors": ["src/gwkokab/inference/poissonlikelihood_flowMC.py: flowMC_poisson_likelihood", "src/gwkokab/inference/analyticallikelihood.py: analytical_likelihood"]}
{"id": "C07", "title": "flowMC and NumPyro back-ends target the same posterior", "statement": "For the same catalogue, model, priors and parameter values, whenever the flowMC log-posterior is finite it equals the sum of the log-densities of the NumPyro sample sites and of the NumPyro factor.", "quantifier": "all catalogues, models, priors and parameter values", "why_tests_cant": "Two programs agreeing on all inputs.", "anchors": ["src/gwkokab/inference/poissonlikelihood_flowMC.py", "src/gwkokab/inference/poissonlikelihood_numpyro.py"]}
{"id": "C08", "title": "Expected-count estimator ignores processing batch size and injection order", "statement": "The expected number of detections from sensitivity injections equals (T/N_total) * sum over found injections of model density / draw density, where injections with zero or undefined density count zero. It does not depend on the batch size or the order of the injections.", "quantifier": "all injection sets, orders and batch sizes, all model densities including -inf and NaN", "why_tests_cant": "Quantifies over all orders and batch sizes.", "anchors": ["src/gwkokab/poisson_mean/_injection_based.py: poisson_mean_from_sensitivity_injections"]}
{"id": "C09", "title": "Variance of the expected-count estimator is never negative", "statement": "The variance of the expected-count estimator is T^2/N^2 * (sum w^2 - (sum w)^2/N), and is non-negative whenever the number of found injections does not exceed the number generated.", "quantifier": "all injection weights, all totals N not smaller than the number of found injections", "why_tests_cant": "Cauchy-Schwarz for all weights.", "anchors": ["src/gwkokab/poisson_mean/_injection_based.py: _variance_of_estimator"]}
{"id": "C10", "title": "Variance of the single-event Monte-Carlo likelihood is never negative", "statement": "For each event with at least one sample of positive weight the variance contribution (sum w^2)/(sum w)^2 - 1/N is non-negative, it is zero when all weights are equal, and the total over a padded and bucketed catalogue equals the sum over events.", "quantifier": "all catalogues, all bucketings, all weights", "why_tests_cant": "Cauchy-Schwarz plus invariance for all bucketings.", "anchors": ["src/gwkokab/inference/poissonlikelihood_utils.py: variance_of_single_event_likelihood"]}
{"id": "C11", "title": "Variance cut keeps exactly the samples below the threshold", "statement": "Filtering the posterior samples by estimator variance keeps, in the original order, exactly the samples whose finite variance is below the threshold, whatever the internal batch size.", "quantifier": "all sample lists, all variance functions, all batch sizes", "why_tests_cant": "Chunked processing must agree with unchunked processing for every length.", "anchors": ["src/gwkanal/core/sage.py: variance filter", "src/gwkokab/utils/tools.py: batch_and_remainder"]}
{"id": "C12", "title": "Splitting an array into batches and a remainder is lossless", "statement": "batch_and_remainder returns full batches of exactly the requested size plus a remainder shorter than one batch; their concatenation is the input, in order.", "quantifier": "all arrays and all positive batch sizes", "why_tests_cant": "All lengths and batch sizes.", "anchors": ["src/gwkokab/utils/tools.py: batch_and_remainder"]}
{"id": "C13", "title": "Mixture density is the rate-weighted sum of component densities", "statement": "exp(log_prob) of a ScaledMixture with explicit support equals the sum over components of scale times component density, where a component evaluated outside its own support contributes zero; it is -inf exactly when every component contributes zero, and does not depend on the order of the components.", "quantifier": "all numbers of components, all scales, all component log-densities that are finite or -inf, all points", "why_tests_cant": "All mixtures, including points outside some supports.", "anchors": ["src/gwkokab/models/utils/_scaledmixture.py: ScaledMixture.log_prob, component_log_probs"]}
{"id": "C14", "title": "Joint density is the sum of marginal log-densities over disjoint consecutive slices", "statement": "JointDistribution slices the event vector into consecutive disjoint slices, one per marginal and of that marginal's length, covering the whole vector; its log-density is the sum of the marginals' log-densities on their slices and its support is the conjunction of the marginals' supports.", "quantifier": "all lists of marginals of any event sizes, all points", "why_tests_cant": "All nesting shapes and sizes.", "anchors": ["src/gwkokab/models/utils/_joindistribution.py: JointDistribution", "src/gwkokab/models/constraints.py: _AllConstraint"]}
{"id": "C15", "title": "Flattening nested joints changes neither density nor support", "statement": "For every nesting of JointDistributions, building with flatten_method None, 'shallow' or 'deep' gives the same event size, the same log-density and the same support.", "quantifier": "all finite nestings and all points", "why_tests_cant": "Structural induction over all nestings.", "anchors": ["src/gwkokab/models/utils/_joindistribution.py: _flatten_marginal_distributions"]}
{"id": "C16", "title": "Lazy joint density follows the chain rule", "statement": "The log-density of a LazyJointDistribution of scalar marginals is the sum over coordinates of the conditional log-density of the coordinate given the coordinates its parameters depend on; sampling in the given partial order only reads values which have already been drawn.", "quantifier": "all dependency graphs, all partial orders that respect them, all points", "why_tests_cant": "All dependency graphs.", "anchors": ["src/gwkokab/models/utils/_lazyjointdistribution.py: LazyJointDistribution"]}
{"id": "C17", "title": "Dependency ordering of lazy priors is a valid topological order", "statement": "For every acyclic dependency relation among prior parameters, the computed order contains every parameter exactly once and places each parameter after everything it depends on, whatever the iteration order of dictionaries and sets.", "quantifier": "all finite dependency graphs and all iteration orders", "why_tests_cant": "All graphs, all iteration orders.", "anchors": ["src/gwkanal/core/guru.py: _topological_sort, _classify_model_parameters"]}
{"id": "C18", "title": "Cyclic lazy priors are rejected exactly when a cycle exists", "statement": "The cycle check reports a cycle if and only if the dependency relation has one.", "quantifier": "all finite dependency graphs and all iteration orders", "why_tests_cant": "All graphs.", "anchors": ["src/gwkanal/core/guru.py: _check_cycles"]}
{"id": "C19", "title": "Parameter names and vector coordinates stay aligned", "statement": "After classification each sampled parameter has the coordinate given by its position in the sorted list of sampled names, the coordinate's prior is the prior of that parameter, an alias shares the coordinate of its target, and a constant keeps its value.", "quantifier": "all prior configurations", "why_tests_cant": "All configurations of constants, priors and aliases.", "anchors": ["src/gwkanal/core/guru.py: _classify_model_parameters, classify_model_parameters"]}
{"id": "C20", "title": "No requested parameter is silently lost when resolving aliases", "statement": "Every model parameter for which the configuration has an entry ends up as a constant, as a sampled variable, or raises an error.", "quantifier": "all prior configurations", "why_tests_cant": "All alias graphs, including chains and dangling aliases.", "anchors": ["src/gwkanal/core/guru.py: _classify_model_parameters"]}
{"id": "C21", "title": "Prior lookup prefers the exact name over patterns", "statement": "When the configuration has an entry with exactly the requested name, that entry's value is the one used, regardless of any pattern entries that also match.", "quantifier": "all configurations and requested names, all matching relations", "why_tests_cant": "All configurations incl. falsy values.", "anchors": ["src/gwkanal/utils/regex.py: match_all"]}
{"id": "C22", "title": "A model parameter without a prior is an error", "statement": "get_processed_priors raises when a model parameter matches no entry of the prior configuration.", "quantifier": "all configurations and parameter lists", "why_tests_cant": "All configurations.", "anchors": ["src/gwkanal/utils/priors.py: get_processed_priors", "src/gwkanal/utils/regex.py: match_all"]}
{"id": "C23", "title": "Per-component parameters take precedence over shared ones and defaults", "statement": "For each component index the constructor argument used is name_i if given, else name if given, else the default, and a missing necessary parameter raises.", "quantifier": "all parameter dictionaries, names, indices and defaults", "why_tests_cant": "All dictionaries, including explicit None values.", "anchors": ["src/gwkokab/models/hybrids/_ncombination.py: _get_parameter, _fetch_first_matching_value"]}
{"id": "C24", "title": "Removing the rates from posterior samples keeps names on their columns", "statement": "After wiping log-rate columns each remaining parameter name still points to the column holding its own samples, the rate columns are gone and the relative order of the others is unchanged.", "quantifier": "all name-to-column maps and sample arrays", "why_tests_cant": "All layouts of names and columns.", "anchors": ["src/gwkanal/utils/ppd.py: wipe_log_rate"]}
{"id": "C25", "title": "Coordinates of the mass-spin-redshift mixture line up with the declared parameter list", "statement": "For every combination of the optional features of the N-powerlaw-M-Gaussian model, the list of parameter names used to load the data has one entry per coordinate of the model event vector, and the k-th name is the quantity described by the k-th coordinate.", "quantifier": "all combinations of feature flags and all component counts", "why_tests_cant": "Exponentially many flag combinations times unbounded component counts.", "anchors": ["src/gwkanal/n_pls_m_gs/sage.py: parameters", "src/gwkokab/models/hybrids/_npowerlawmgaussian.py: _build_non_mass_distributions, NPowerlawMGaussian"]}
{"id": "C26", "title": "Component masses and (chirp mass, symmetric mass ratio) are mutually inverse", "statement": "For m1 >= m2 > 0, converting to chirp mass and symmetric mass ratio and back returns (m1, m2); conversely for Mc > 0 and 0 < eta <= 1/4 the component masses returned reproduce (Mc, eta).", "quantifier": "all positive mass pairs; all valid (Mc, eta)", "why_tests_cant": "A real-analysis identity.", "anchors": ["src/gwkokab/utils/transformations.py: chirp_mass, symmetric_mass_ratio, Mc_eta_to_m1_m2", "src/gwkokab/models/transformations.py: ComponentMassesToChirpMassAndSymmetricMassRatio"]}
{"id": "C27", "title": "Every mass-coordinate transform is invertible on its domain", "statement": "For each of the mass transforms ((m1,q)<->(m1,m2), (m1,m2)<->(m1,q), (m1,m2)<->(q,m2), (m1,m2)<->(M,q), (m1,m2)<->(Mc,delta), delta<->eta, source<->detector frame) the inverse of the forward map is the identity on the stated domain, the forward of the inverse is the identity on the image, and the forward map lands in the closure of the stated codomain.", "quantifier": "all points of the domain", "why_tests_cant": "All real inputs.", "anchors": ["src/gwkokab/models/transformations.py"]}
{"id": "C28", "title": "Every mass-coordinate transform reports the true Jacobian", "statement": "log_abs_det_jacobian equals the log of the absolute value of the determinant of the partial derivatives of the forward map at every interior point of the domain.", "quantifier": "all interior points of the domain of each transform", "why_tests_cant": "Derivatives at all points.", "anchors": ["src/gwkokab/models/transformations.py: log_abs_det_jacobian"]}
{"id": "C29", "title": "Forward map lands in the declared codomain", "statement": "For every point accepted by the domain constraint of a transform its image is accepted by the declared codomain constraint.", "quantifier": "all points of the domain, all transforms", "why_tests_cant": "Boundary points (equal masses) are measure zero and never sampled.", "anchors": ["src/gwkokab/models/transformations.py: codomain"]}
{"id": "C30", "title": "Effective spins are physical", "statement": "For positive masses and spin components in [-1,1] the effective spin lies between the two aligned components, the pair (chi_eff, chi_minus) determines (chi_1z, chi_2z), and chi_p lies in [0,1].", "quantifier": "all masses, spins and tilts", "why_tests_cant": "Inequalities over all reals.", "anchors": ["src/gwkokab/utils/transformations.py: chieff, chiminus, m1_m2_chieff_chiminus_to_chi1z_chi2z, chi_p_from_components"]}
{"id": "C31", "title": "Cartesian, polar and spherical coordinates round-trip", "statement": "Converting a non-zero Cartesian vector to polar or spherical coordinates and back gives the same vector.", "quantifier": "all non-zero vectors", "why_tests_cant": "All real inputs including all quadrants.", "anchors": ["src/gwkokab/utils/transformations.py: polar_to_cart, cart_to_polar, spherical_to_cart, cart_to_spherical"]}
{"id": "C32", "title": "Truncated power law is normalised for every index", "statement": "For every index alpha, including -1, and 0 < low < high the density integrates to one over [low, high].", "quantifier": "all indices, all bounds", "why_tests_cant": "An integral identity over a continuum of parameters.", "anchors": ["src/gwkokab/models/utils/_doubletruncpowerlaw.py: doubly_truncated_power_law_log_norm_constant, log_prob"]}
{"id": "C33", "title": "Power-law cdf and inverse cdf are mutually inverse and monotone", "statement": "The cdf is 0 below low, 1 above high, its derivative inside is the density, icdf maps [0,1] to [low, high], cdf(icdf(q)) = q and icdf(cdf(x)) = x; both are increasing.", "quantifier": "all indices (including -1), bounds, x in range and q in [0,1]", "why_tests_cant": "Continuum of inputs.", "anchors": ["src/gwkokab/models/utils/_doubletruncpowerlaw.py: cdf, icdf"]}
{"id": "C34", "title": "Hand-written power-law derivatives are the true derivatives", "statement": "The custom derivative rules of the power-law normalisation constant, cdf and inverse cdf equal the partial derivatives of the corresponding primal functions with respect to every argument.", "quantifier": "all parameters away from, and at, the index -1", "why_tests_cant": "A symbolic derivative at all points; numeric gradient tests are pointwise.", "anchors": ["src/gwkokab/models/utils/_doubletruncpowerlaw.py: *_jvp"]}
{"id": "C35", "title": "Primary-mass/mass-ratio power law is normalised in two dimensions", "statement": "The density of PowerlawPrimaryMassRatio over (m1, q) with m_min <= m1 <= m_max and m_min/m1 <= q <= 1 integrates to one for all indices.", "quantifier": "all alpha, beta, 0 < m_min < m_max", "why_tests_cant": "Double integral over a continuum of parameters.", "anchors": ["src/gwkokab/models/mass/_models.py: PowerlawPrimaryMassRatio"]}
{"id": "C36", "title": "Broken power law is continuous and normalised", "statement": "The broken power law density is continuous at the break and integrates to one over its range.", "quantifier": "all indices and all ordered (m_min, m_break, m_max)", "why_tests_cant": "Continuum of parameters.", "anchors": ["src/gwkokab/models/mass/_bpls.py: BrokenPowerlaw"]}
{"id": "C37", "title": "Smoothing taper is a proper monotone window", "statement": "The exponential of the Planck taper log-window is 0 for x <= 0, 1 for x >= 1, strictly increasing in between, within (0,1), and satisfies S(x) + S(1-x) = 1.", "quantifier": "all real x", "why_tests_cant": "All reals.", "anchors": ["src/gwkokab/utils/kernel.py: log_planck_taper_window"]}
{"id": "C38", "title": "Truncated normal log density is normalised on all branches", "statement": "exp(truncnorm_logpdf) integrates to one over [low, high] and is zero outside, and the three numerically motivated branches of the normaliser give the same real number.", "quantifier": "all loc, scale > 0, low < high (any position with respect to loc)", "why_tests_cant": "Continuum of inputs and branch selection.", "anchors": ["src/gwkokab/utils/math.py: truncnorm_logpdf"]}
{"id": "C39", "title": "Beta mean/variance conversion is a bijection", "statement": "Converting (mean, variance) to concentrations and back returns the pair, and conversely; the concentrations are positive exactly when variance < mean(1-mean).", "quantifier": "all means in (0,1), all variances; all positive concentrations", "why_tests_cant": "Continuum of inputs.", "anchors": ["src/gwkokab/utils/math.py: beta_dist_mean_variance_to_concentrations, beta_dist_concentrations_to_mean_variance"]}
{"id": "C40", "title": "Minimum-concentration check is exact", "statement": "check_min_concentration_for_beta_dist accepts (mean, variance) exactly when both concentrations of the corresponding Beta distribution exceed their minima.", "quantifier": "all means in (0,1), positive variances and minima", "why_tests_cant": "An equivalence over a continuum.", "anchors": ["src/gwkanal/utils/checks.py: check_min_concentration_for_beta_dist"]}
{"id": "C41", "title": "Dirichlet-element priors assemble a uniform Dirichlet", "statement": "Each non-final element density integrates to one over its conditional range, sampling is its inverse cdf, drawn elements are non-negative and sum to one, and the product of the conditional densities is the constant (N-1)!, the density of the flat Dirichlet.", "quantifier": "all dimensions N, all orders, all partial sums and all uniforms", "why_tests_cant": "Induction over N and integrals.", "anchors": ["src/gwkanal/utils/priors.py: _DirichletElement, DirichletElement"]}
{"id": "C42", "title": "Mixing fractions completed by the last component sum to one", "statement": "For every number of components and every list of given fractions, the full list of fractions used by the mixture sums to one and, when the given ones are non-negative with sum at most one, all are non-negative.", "quantifier": "all numbers of components and fractions", "why_tests_cant": "All lengths.", "anchors": ["src/gwkokab/models/hybrids/_o4_n_bpls_m_gs.py", "src/gwkokab/models/hybrids/_bp2pmultispinfull.py"]}
{"id": "C43", "title": "Vector order constraints mean pairwise order", "statement": "The (strictly) increasing, decreasing and positive variants accept a vector exactly when every pair of entries is in the stated order (and positivity holds), and the feasible_like value is accepted.", "quantifier": "all vectors of all lengths", "why_tests_cant": "All lengths.", "anchors": ["src/gwkokab/models/constraints.py: increasing_vector, decreasing_vector, strictly_*, positive_*"]}
{"id": "C44", "title": "Mass-sandwich constraint and its mass-ratio form describe the same region", "statement": "A pair (m1, q) is accepted by the mass-ratio sandwich exactly when (m1, q m1) is accepted by the mass sandwich; feasible values are accepted.", "quantifier": "all pairs and all bounds", "why_tests_cant": "Continuum including boundaries.", "anchors": ["src/gwkokab/models/constraints.py: mass_sandwich, mass_ratio_mass_sandwich"]}
{"id": "C45", "title": "Equal constraints accept the same points", "statement": "If two composite constraints compare equal then they accept exactly the same points.", "quantifier": "all pairs of composite constraints", "why_tests_cant": "All pairs of constraints.", "anchors": ["src/gwkokab/models/constraints.py: _AllConstraint.__eq__, _AnyConstraint.__eq__"]}
{"id": "C46", "title": "All chains are saved exactly once", "statement": "For every number of chains and every batch size of chains the NumPyro driver writes chain files 0..n-1, each exactly once and with that chain's samples, and the combined file is their concatenation in order.", "quantifier": "all chain counts and chain batch sizes", "why_tests_cant": "All pairs of integers.", "anchors": ["src/gwkanal/core/numpyro_based.py: _run_mcmc, _save_inference_data"]}
{"id": "C47", "title": "The sampler executes the configured strategy sequence exactly", "statement": "For every number of training and production loops, the strategies run by the flowMC driver are, in order and with multiplicity, exactly those of the bundle's strategy order.", "quantifier": "all loop counts", "why_tests_cant": "All loop counts.", "anchors": ["src/gwkanal/core/flowMC_based.py: Local_Global_Sampler_Bundle, Sampler.sample"]}
{"id": "C48", "title": "Saved production samples are exactly the local-step samples", "statement": "The indices of production samples saved are exactly those produced by local steps, all of them, in order, for every number of loops and local and global step counts.", "quantifier": "all step and loop counts", "why_tests_cant": "All counts.", "anchors": ["src/gwkanal/core/flowMC_based.py: _save_samples"]}
{"id": "C49", "title": "Leapfrog integration is time-reversible", "statement": "Integrating, negating the momentum, integrating again and negating again returns to the starting point, for every number of leapfrog steps and step size.", "quantifier": "all potentials, step sizes, numbers of steps, starting points and dimensions", "why_tests_cant": "Induction over the number of steps and all gradients.", "anchors": ["src/gwkanal/core/flowMC_based.py: _HMC.leapfrog_kernel, leapfrog_step"]}
{"id": "C50", "title": "HMC kernel keeps the cached log-density consistent", "statement": "After any number of HMC steps the cached log-density equals the log-density of the cached position, and each step either keeps the position or moves to the proposal.", "quantifier": "all chains of steps, all randomness", "why_tests_cant": "All histories.", "anchors": ["src/gwkanal/core/flowMC_based.py: _HMC.kernel"]}
{"id": "C51", "title": "Train/test split is a partition with non-empty parts", "statement": "Training and test parts are disjoint, cover the data and, when there are at least two batches of data, each has at least one batch.", "quantifier": "all data sizes, batch sizes and test fractions", "why_tests_cant": "All integers and fractions.", "anchors": ["src/gwkokab/utils/train.py: _train_test_data_split"]}
{"id": "C52", "title": "Training on log targets preserves the order of the targets", "statement": "A smaller detection probability never gets a larger log training target than a larger one.", "quantifier": "all pairs of target values in [0,1]", "why_tests_cant": "Includes the exact zero, which numerical tests tend to avoid.", "anchors": ["src/gwkokab/utils/train.py: train_regressor (train_in_log)"]}
{"id": "C53", "title": "Injections found at stricter thresholds are found at looser ones", "statement": "Raising the inverse-false-alarm-rate or SNR threshold never adds found injections, and an injection is found when at least one search reports a false-alarm rate below the cut.", "quantifier": "all injection files and thresholds", "why_tests_cant": "All files and thresholds.", "anchors": ["src/gwkokab/poisson_mean/_injection_based_helper.py: get_found_injections"]}
{"id": "C54", "title": "Re-expressed injection draw density is the density in the requested coordinates", "statement": "For every supported set of requested parameters the draw density is multiplied by exactly the Jacobian of the change from source-frame component masses to the requested mass coordinates.", "quantifier": "all requested parameter sets and all injections", "why_tests_cant": "All parameter sets times all points.", "anchors": ["src/gwkokab/poisson_mean/_injection_based_helper.py: apply_injection_prior"]}
{"id": "C55", "title": "Posterior-sample mass prior is the density in the requested coordinates", "statement": "For each declared analysis mass prior and each requested mass parametrisation, the log prior attached to a posterior sample equals (up to a constant) the log of the declared prior transformed to those coordinates.", "quantifier": "all samples, all declared priors and parametrisations", "why_tests_cant": "All parametrisations times all points.", "anchors": ["src/gwkanal/core/inference_io/_discrete.py: mass prior"]}
{"id": "C56", "title": "Population rows have ordered masses and nothing else changed", "statement": "In generated populations each row has primary mass at least the secondary, the pair of masses is a reordering of the drawn pair and the other columns are unchanged.", "quantifier": "all drawn populations", "why_tests_cant": "All rows.", "anchors": ["src/gwkanal/core/population.py: _generate_population"]}
{"id": "C57", "title": "Error injection uses a distinct random key per event and parameter group", "statement": "No two (event, parameter group) pairs share a random key and no key index is out of range.", "quantifier": "all numbers of events and groups", "why_tests_cant": "All pairs.", "anchors": ["src/gwkanal/core/population.py: _add_error"]}
{"id": "C58", "title": "File names always end in .dat", "statement": "ensure_dat_extension returns a name ending in .dat, is idempotent and changes nothing else about a name that already has it.", "quantifier": "all strings", "why_tests_cant": "All strings.", "anchors": ["src/gwkanal/core/population.py: ensure_dat_extension"]}
{"id": "C59", "title": "Mean, variance and cdf of a mixture belong to its density", "statement": "The mean and variance reported by a ScaledMixture are those of the distribution it samples from, and its cdf is a primitive of the (rate-weighted) density.", "quantifier": "all numbers of components, scales, means, variances and component cdfs", "why_tests_cant": "All scales, including rates that do not sum to one.", "anchors": ["src/gwkokab/models/utils/_scaledmixture.py: ScaledMixture.mean, variance, cdf"]}
{"id": "C60", "title": "feasible_like of a composite constraint satisfies it", "statement": "For every nesting of all/any/transformed constraints over parts whose own feasible value is accepted, feasible_like returns a value of the right size which the composite constraint accepts.", "quantifier": "all finite nestings, all prototypes", "why_tests_cant": "Structural induction over all nestings.", "anchors": ["src/gwkokab/models/constraints.py: _AllConstraint.feasible_like, _AnyConstraint.feasible_like, _TransformedConstraint.feasible_like"]}
{"id": "C61", "title": "Redshift and luminosity distance determine each other", "statement": "For every cosmology with positive expansion rate, Cosmology.DL_to_z(z_to_DL(z)) = z for every redshift from 0 to max_z, z_to_DL(DL_to_z(d)) = d for every distance up to that of max_z, the distance is 0 at redshift 0 and strictly increasing. Beyond the grid the distance stays constant.", "quantifier": "all densities, Hubble constants, grid extents and spacings; all redshifts", "why_tests_cant": "Every grid, and every point between two grid points.", "anchors": ["src/gwkokab/cosmology/_cosmology.py: Cosmology.z_to_DL, DL_to_z, __init__"]}
{"id": "C62", "title": "Redshift-to-distance transform reports its Jacobian", "statement": "log_abs_det_jacobian of RedshiftToLuminosityDistance is the log of the derivative of the distance it returns.", "quantifier": "all cosmologies, all redshifts inside the grid", "why_tests_cant": "Derivative at every real point.", "anchors": ["src/gwkokab/models/transformations.py: RedshiftToLuminosityDistance", "src/gwkokab/cosmology/_cosmology.py: Cosmology"]}
{"id": "C63", "title": "Comoving volume element and table", "statement": "dVcdz(z) = 4 pi/10^9 Dc(z)^2 dDc/dz (Gpc^3), is never negative and vanishes only at z=0, where it is 0 and not NaN; the tabulated comoving volume starts at 0 and never decreases.", "quantifier": "all densities and grids, all redshifts >= 0", "why_tests_cant": "Includes z = 0, where the logarithm of zero is taken.", "anchors": ["src/gwkokab/cosmology/_cosmology.py: Cosmology.logdVcdz, dVcdz, Vc"]}
{"id": "C64", "title": "Block transform acts block by block", "statement": "BlockTransform applies each transform to its own slice, its inverse undoes it whenever the inverses of the parts do, its log-Jacobian is the sum over the blocks and its domain the conjunction, for every list of disjoint slices covering the event.", "quantifier": "all lists of transforms and slices, all points", "why_tests_cant": "Any number of blocks of any size, scalar or vector.", "anchors": ["src/gwkokab/models/transformations.py: BlockTransform"]}
{"id": "C65", "title": "Unconstrained coordinates reach exactly the constrained set", "statement": "biject_to of the package's vector and mass constraints maps every unconstrained point into the constraint, reaches every interior point of it and takes no value twice.", "quantifier": "all dimensions, all mass bounds, all points", "why_tests_cant": "Continuum of points and bounds.", "anchors": ["src/gwkokab/models/transformations.py: biject_to registrations", "src/gwkokab/models/constraints.py"]}
{"id": "C66", "title": "Wysocki mass model and joint mass samplers", "statement": "The Wysocki primary/secondary mass density integrates to one over m_min <= m2 <= m1 <= m_max and is zero for m2 outside [m_min, m1]; samples of it and of PowerlawPrimaryMassRatio always lie in the support.", "quantifier": "all indices, 0 < m_min < m_max, all uniforms in [0,1)", "why_tests_cant": "Double integral over a continuum; sampling tests only see typical draws.", "anchors": ["src/gwkokab/models/mass/_models.py: Wysocki2019MassModel, PowerlawPrimaryMassRatio.sample"]}
{"id": "C67", "title": "Grid-normalised mass models are normalised on their own quadrature", "statement": "For the smoothed two-component and the broken-power-law two-peak mass models, the primary-mass factor sums to one under the quadrature the model uses (exact integral outside the smoothed edge), and at each primary-mass grid node the mass-ratio factor sums to one, with validation on or off; between two nodes it does so up to the factor by which its sum changes from one node to the next.", "quantifier": "all parameters in the documented ranges", "why_tests_cant": "Normalisers are computed by quadrature and interpolation; tests check a few parameter sets to a tolerance.", "anchors": ["src/gwkokab/models/mass/_models.py: SmoothedTwoComponentPrimaryMassRatio", "src/gwkokab/models/mass/_bpls.py: BrokenPowerlawTwoPeak"]}
{"id": "C68", "title": "Skew-normal effective-spin density is normalised", "statement": "GWTC4EffectiveSpinSkewNormalModel's density integrates to one over [-1, 1] for every location (inside or outside the interval), every positive scale and every skewness in (-1, 1); it is a Gaussian of width scale(1+eps) below the location and scale(1-eps) above it, and is zero outside [-1, 1].", "quantifier": "all locations, positive scales and skewness in (-1,1)", "why_tests_cant": "An integral identity over a continuum of parameters, with separate cases for locations outside the interval.", "anchors": ["src/gwkokab/models/spin/_models.py: GWTC4EffectiveSpinSkewNormalModel"]}
{"id": "C69", "title": "Truncated-normal mixtures are normalised in every dimension", "statement": "TwoTruncatedNormalMixture and NDIsotropicAndTruncatedNormalMixture (and the spin-orientation and minimum-tilt models built on it) integrate to one over any box that contains the supports of their components, and at every point equal (1 - zeta) times the first component plus zeta times the second.", "quantifier": "all dimensions, mixing fractions in [0,1], locations, positive scales and bounds", "why_tests_cant": "Iterated integrals in any number of dimensions.", "anchors": ["src/gwkokab/models/sundry/_models.py", "src/gwkokab/models/spin/_models.py: IndependentSpinOrientationGaussianIsotropic, MinimumTiltModel, MinimumTiltModelExtended"]}
{"id": "C70", "title": "Adding spins to the two-peak mass model leaves its mass marginal unchanged", "statement": "Integrating the density of the broken-power-law, two-peak model with per-component spin magnitudes and tilts over both spin magnitudes and both tilts gives the density of the mass-only model at the same masses; at a mass, the density of spins and tilts is the mean of those of the four parts of the mass spectrum (power law below and above the break, two peaks), weighted by their shares of the spectrum there.", "quantifier": "all mass, mixture and spin parameters with positive scales and all masses", "why_tests_cant": "an identity between an integral over four coordinates and a density, for every parameter value", "anchors": ["src/gwkokab/models/hybrids/_bp2pmultispinfull.py: BrokenPowerlawTwoPeakMultiSpinMultiTilt"]}
{"id": "C71", "title": "Redshift models have the documented shape, normaliser and samples", "statement": "The redshift density is comoving volume per redshift over (1+z) times the documented rate evolution, which is one at z=0; dividing by the reported normalisation gives a density of total one on the integration grid; samples lie in [0, z_max], increase with the uniform draw and invert the tabulated distribution function. The density is integrable; exp(log_norm) is within z_max w of its integral when the density changes by at most w within z_max/2499, and the exact distribution function at sample(u) is within 2 z_max w / integral of u when it changes by at most w within z_max/9999. The class documents log_prob itself as normalised.", "quantifier": "all rate parameters, cosmologies with positive squared expansion rate, z_max > 0, uniform draws in [0,1]", "why_tests_cant": "tests sample a few parameter values and compare against another implementation", "anchors": ["src/gwkokab/models/redshift/_models.py: _RedshiftModel, PowerlawRedshift, MadauDickinsonRedshift"]}
{"id": "C72", "title": "Posterior tables hold exactly the error functions' values", "statement": "Every column of a simulated event's posterior table that some error function covers holds exactly that function's samples of the event's true value, and rows with an undefined entry are dropped; columns no function covers hold whatever memory held.", "quantifier": "all parameter lists, registries with disjoint columns, events", "why_tests_cant": "All registries and events.", "anchors": ["src/gwkanal/core/population.py: _add_error"]}
{"id": "C73", "title": "Means and covariances of simulated posteriors", "statement": "The stored means are the sample means, and the stored covariance is the unbiased sample covariance, restricted to the blocks asked for and zero outside them.", "quantifier": "all sample tables, all tiles", "why_tests_cant": "All tables and tiles.", "anchors": ["src/gwkanal/core/population.py: add_mean_and_covariance"]}
{"id": "C74", "title": "Banana error returns masses with the perturbed chirp mass and mass ratio", "statement": "For positive masses and any random draws, the mass error model returns masses whose chirp mass and symmetric mass ratio are the true ones perturbed by the documented relative widths, larger mass first, and an undefined mass when the perturbed mass ratio is impossible.", "quantifier": "all masses, draws and signal-to-noise ratios", "why_tests_cant": "All draws.", "anchors": ["src/gwkokab/errors.py: banana_error_m1_m2"]}
{"id": "C75", "title": "Truncated errors respect the cuts", "statement": "If the truncated error model returns, it returns the requested number of values, none beyond a cut; first draws within the cuts are kept and others are redrawn with fresh keys.", "quantifier": "all cuts, sizes, keys and samplers", "why_tests_cant": "All iterations of the resampling loop.", "anchors": ["src/gwkokab/errors.py: truncated_normal_error"]}
{"id": "C76", "title": "Spins and draw density of the injections are converted to magnitudes and tilts", "statement": "Loading an injection set gives, for each found injection, the magnitude and tilt cosine of the Cartesian spin of each component, with magnitude times cosine equal to the z component, and a draw density per magnitude and cosine: the stored density per Cartesian component times 2 pi a^2 for each spin, or the stored density per polar angle divided by the sine; both ways of storing the density agree.", "quantifier": "all injection files, all spins", "why_tests_cant": "a missing factor of the Jacobian gives plausible finite weights; files with the other layouts are rare", "anchors": ["src/gwkokab/poisson_mean/_injection_based_helper.py: load_injection_data"]}
{"id": "C77", "title": "Samples and log priors of the loader stay aligned, whatever the aliases", "statement": "Loading posterior samples gives one array of samples and one of log priors per file, in the order of the files; the k-th sample and the k-th log prior of an event come from the same row; at most max_samples rows are kept, drawn with the seed seed + i for the i-th file; aliases only rename columns; a file without a requested column is an error.", "quantifier": "all loaders, files, parameter lists, seeds and row draws", "why_tests_cant": "misaligned rows give the right shapes; alias handling is spread over five functions", "anchors": ["src/gwkanal/core/inference_io/_discrete.py: load, _subsample, _validate_columns, _get_q"]}
{"id": "C78", "title": "Distance and spin prior of a posterior sample are the declared densities", "statement": "The distance part of the log prior is, up to a constant, the log of the derivative in redshift of the Euclidean volume or of the comoving volume element over 1 + z; the spin part is the log of the isotropic density of the spin parameters asked for; the log prior is the sum of the three parts.", "quantifier": "all samples and declared priors", "why_tests_cant": "a wrong power of 1 + z or a wrong Jacobian only reweights samples smoothly", "anchors": ["src/gwkanal/core/inference_io/_discrete.py: _calculate_distance_prior, _calculate_spin_prior"]}
{"id": "C79", "title": "An epoch visits every training row once and reports the mean loss", "statement": "The mini-batches of an epoch cover the training rows exactly once, in order, with at most batch_size rows each, and the reported loss of the epoch is the mean loss per row.", "quantifier": "all training sets and batch sizes", "why_tests_cant": "an off-by-one in the slices drops a few rows; the loss curve looks the same", "anchors": ["src/gwkokab/utils/train.py: train_regressor (training loop)"]}
{"id": "C80", "title": "A saved network is loaded back unchanged", "statement": "Loading a saved network returns its input names, sizes, weights and biases; the file keeps the attributes of the data file and records whether targets were logarithms; paths without .hdf5 are refused.", "quantifier": "all networks, names and attributes", "why_tests_cant": "a swapped or skipped layer still gives a network of the right shape", "anchors": ["src/gwkokab/utils/train.py: save_model, load_model"]}
{"id": "C81", "title": "The learning rate warms up to its peak and decays to its floor over the training", "statement": "The learning rate is between zero and its peak, rises to the peak over the warm-up epochs and then decays, reaching the floor at the end of the training.", "quantifier": "all training sizes, batch sizes, epoch and warm-up counts", "why_tests_cant": "a schedule that ends early only slows the convergence", "anchors": ["src/gwkokab/utils/train.py: train_regressor (schedule)"]}
{"id": "C82", "title": "The binary cross-entropy with logits is a proper loss", "statement": "The loss is positive, its gradient in the logit is the predicted probability minus the clipped label, and it is smallest when the predicted probability is the clipped label.", "quantifier": "all logits, labels and clipping widths below one half", "why_tests_cant": "a swapped sign or label still gives a decreasing loss curve", "anchors": ["src/gwkokab/utils/train.py: bce_logits_loss_fn"]}
{"id": "C83", "title": "The declared hyper-parameters of the power law / Gaussian mixture suffice to build it", "statement": "Giving a value to every hyper-parameter the analysis declares, for the chosen switches and component counts, builds the mixture without error.", "quantifier": "all switches, component counts and values", "why_tests_cant": "there are 2^17 combinations of switches; a name misspelt in one branch only fails there", "anchors": ["src/gwkanal/n_pls_m_gs/sage.py: model_parameters", "src/gwkokab/models/hybrids/_npowerlawmgaussian.py: NPowerlawMGaussian"]}
{"id": "C84", "title": "The declared hyper-parameters of the power law / Gaussian mixture are distinct, one per component", "statement": "No name is declared twice; every name is declared once for each component of its type, numbered from zero, and log_rate once for each component.", "quantifier": "all switches and component counts", "why_tests_cant": "a duplicated or missing name silently shares or drops a prior", "anchors": ["src/gwkanal/n_pls_m_gs/sage.py: model_parameters", "src/gwkanal/utils/common.py: expand_arguments"]}
{"id": "C85", "title": "Every declared hyper-parameter of the power law / Gaussian mixture has an effect on it", "statement": "The value of every declared hyper-parameter is an argument of one of the distributions or rates of the mixture that is built.", "quantifier": "all switches, component counts and values", "why_tests_cant": "an ignored hyper-parameter just returns its prior", "anchors": ["src/gwkanal/n_pls_m_gs/sage.py: model_parameters", "src/gwkokab/models/utils/_ncombination.py"]}
{"id": "C86", "title": "Proposals with inadmissible Beta spins are rejected by the power law / Gaussian analysis", "statement": "With the Beta model of the spin magnitudes, a proposal is rejected exactly when the mean and variance of one of its components give a concentration below one.", "quantifier": "all component counts and proposals", "why_tests_cant": "the check is only run inside a traced sampler, so its keys are not exercised by unit tests of the model", "anchors": ["src/gwkanal/n_pls_m_gs/sage.py: where_fns_list"]}
{"id": "C87", "title": "The neural expected count is the rate-weighted mean of the selection function", "statement": "The expected number of detections from a neural selection function is the observing time times the sum over components of rate, redshift normaliser (for a detection-probability network) and the mean of the network's answer over the samples of the component; answers below zero count as zero.", "quantifier": "all networks, mixtures, sample sets, times", "why_tests_cant": "a wrong factor only rescales the inferred rates", "anchors": ["src/gwkokab/poisson_mean/_neural_vt.py: neural_vt_poisson_mean", "src/gwkokab/poisson_mean/_neural_pdet.py: neural_pdet_poisson_mean"]}
{"id": "C88", "title": "The variance of the neural expected count is that of a mean of independent samples", "statement": "The reported variance is, summed over components, the squared time, rate and normaliser times the population variance of the network's answers over the number of samples; it is never negative.", "quantifier": "all networks, mixtures, sample sets, times", "why_tests_cant": "the variance is only compared with a threshold", "anchors": ["src/gwkokab/poisson_mean/_neural_vt.py: _variance_of_estimator", "src/gwkokab/poisson_mean/_neural_pdet.py: _variance_of_estimator"]}
{"id": "C89", "title": "The network is fed parameters by name", "statement": "The setup succeeds exactly when every name the network expects is a parameter of the model; the network then receives the values of these names in its own order, whatever the order of the model's parameters.", "quantifier": "all networks, names, parameter orders and events", "why_tests_cant": "tests use the network's own order", "anchors": ["src/gwkokab/poisson_mean/_neural_vt.py: shuffle_indices", "src/gwkokab/poisson_mean/_neural_pdet.py: shuffle_indices"]}
{"id": "C90", "title": "Smoothed mass models: event coordinates line up with the declared parameters", "statement": "NSmoothedPowerlawMSmoothedGaussian and NBrokenPowerlawMGaussian, built by their analyses with compatible feature flags, have one joint distribution per component whose distributions cover, in order, exactly the declared parameters except the last, mass_ratio. Each distribution carries the hyper-parameters given for its own quantity, component type and component number; the mass distribution used for the normalisation is the first one of the component; delta_m, mmin, mmax (or their m1/m2 versions), beta and log_rate go to the right places; the fractions are lambda_0, lambda_1, ... and their complement.", "quantifier": "all numbers of components, all 256 combinations of features, all hyper-parameter values", "why_tests_cant": "one test runs one combination of features; a swapped name (comp1/comp2, a_1/a_2, _pl/_g) gives a plausible density", "anchors": ["src/gwkokab/models/hybrids/_utils.py:32-79", "src/gwkokab/models/hybrids/_o3_n_pls_m_gs.py:27-208", "src/gwkokab/models/hybrids/_o4_n_bpls_m_gs.py:30-213", "src/gwkokab/models/hybrids/_ncombination.py:446-609", "src/gwkanal/o3_n_pls_m_gs/sage.py:140-340", "src/gwkanal/o4_n_bpls_m_gs/sage.py:140-344"]}
{"id": "C91", "title": "Smoothed mass models: the declared hyper-parameters are exactly those that are used", "statement": "For both analyses the declared hyper-parameters are distinct and differ from the constant keyword arguments; values for them are enough to build the model; every one of them enters the model; and the model depends on nothing else. With no component at all the model cannot be built.", "quantifier": "all numbers of components, all combinations of features, all configurations", "why_tests_cant": "a hyper-parameter that is sampled and never used, or read and never declared, shows up only as a flat posterior or in the one configuration that needs it", "anchors": ["src/gwkanal/o3_n_pls_m_gs/sage.py:160-340", "src/gwkanal/o4_n_bpls_m_gs/sage.py:160-344", "src/gwkokab/models/hybrids/_utils.py:32-79", "src/gwkokab/models/hybrids/_ncombination.py:51-146"]}
{"id": "C92", "title": "Smoothed mass models: Beta spin distributions of a proposal are checked", "statement": "With Beta spin magnitudes, positive_concentration accepts a proposal only if mean and variance are admissible for every Beta distribution of the model.", "quantifier": "all numbers of components, all proposals", "why_tests_cant": "needs a proposal whose secondary spin alone is inadmissible", "anchors": ["src/gwkanal/o3_n_pls_m_gs/sage.py:25-56", "src/gwkanal/o4_n_bpls_m_gs/sage.py:25-56", "src/gwkanal/utils/checks.py:11-53"]}
{"id": "C93", "title": "Density of the smoothed hybrid mass models", "statement": "The distributions returned by NSmoothedPowerlawMSmoothedGaussian and NBrokenPowerlawMGaussian give a point (m1, other coordinates, q) the density exp(log_rate) times the mixture of the components' joint densities times the Planck taper S((m1 - m1min)/delta_m1), divided by the trapezoid sum of mixture times taper over 1000 masses, times q^beta S((m1 q - m2min)/delta_m2), divided by its trapezoid sum over 500 ratios interpolated linearly between the 1000 masses. The log density is a number or -inf, never NaN, and it is -inf for m1 <= m1min, m1 > m1max, q <= 0, q > 1 and m1 q <= m2min, with and without argument validation.", "quantifier": "For all component log densities with values in numbers and -inf, all mixing fractions that form a distribution, positive widths and mass limits with m1min < m1max, every real beta and log_rate, and every point.", "why_tests_cant": "The density divides by two computed normalisers, one of them interpolated and replaced by 1 where it vanishes; a missing normaliser, a wrong taper argument or a NaN at an edge shows only at particular parameter values.", "anchors": ["src/gwkokab/models/hybrids/_utils.py:82-208", "src/gwkokab/models/hybrids/_o3_n_pls_m_gs.py:155-208", "src/gwkokab/models/hybrids/_o4_n_bpls_m_gs.py:156-213"]}
{"id": "C94", "title": "The smoothed hybrid mass models integrate to their rate", "statement": "If the other coordinates of every component are normalised, then integrating the density over them and summing over the mass ratios and primary masses the code uses for its normalisation gives exactly exp(log_rate).", "quantifier": "For all components, mixing fractions, slopes, widths and mass limits.", "why_tests_cant": "The rate is what the analysis reports; a model whose density does not add up to it biases the rate without failing anything. It needs the two minimum masses in a particular order to show.", "anchors": ["src/gwkokab/models/hybrids/_utils.py:153-208", "src/gwkokab/models/hybrids/_o4_n_bpls_m_gs.py:160-178"]}
{"id": "C95", "title": "Prior entries mean what they say", "statement": "get_processed_priors returns one value per matched parameter, in order: null gives None, a number itself, a string itself (an alias), and a dictionary a prior built by the constructor its dist field names, called with exactly the other fields; if some of those fields are strings they are left open as dependencies on the parameters they name and the constructor is applied to the remaining fields. It raises exactly when some matched dictionary has no dist field naming a known distribution.", "quantifier": "For all parameter lists and configurations whose dictionaries have distinct keys, every set of available distributions and every constructor.", "why_tests_cant": "Dropping a field, passing dist on, or treating a dependency as a value changes the prior silently for particular configurations only.", "anchors": ["src/gwkanal/utils/priors.py:182-232", "src/gwkanal/utils/regex.py: match_all"]}
{"id": "C96", "title": "Which prior configurations are accepted", "statement": "Guru.classify_model_parameters builds a prior exactly when every processed entry has a known kind, at least one parameter is sampled, every argument of a dependent prior names a sampled parameter, and the dependencies have no cycle. In particular a dependent prior whose argument names a parameter that is fixed to a number, or that is an alias, makes the whole configuration an error.", "quantifier": "For all processed configurations with distinct names in which a dependent prior has at least one argument, every set iteration order and all class constants.", "why_tests_cant": "The rejection comes out of list.index deep in the construction; only configurations that combine a fixed or aliased parameter with a dependent prior show it, and nothing documents which ones are valid.", "anchors": ["src/gwkanal/core/guru.py:79-196", "src/gwkanal/core/guru.py:263-334", "src/gwkokab/models/utils/_lazyjointdistribution.py:144-162"]}
{"id": "C97", "title": "Posterior predictive file holds the sample mean and the marginals", "statement": "compute_and_save_ppd writes, for one distinct header per axis, the posterior predictive density (at each grid point the mean over posterior samples of the model's density) and, under each header and for each sample, the model's density integrated by the trapezoidal rule over the grids of all other axes; it writes nothing exactly when the headers repeat or do not match the axes in number.", "quantifier": "all model densities, sample tables with at least one row, numbers of axes, grids with at least one point, constants and column mappings", "why_tests_cant": "Axis bookkeeping (which axis is integrated after earlier axes have disappeared, row-major order of the flattened mesh) goes wrong only for particular numbers of axes and unequal grid sizes; tests use one or two axes.", "anchors": ["src/gwkanal/utils/ppd.py:50-95", "src/gwkanal/utils/ppd.py:99-157", "src/gwkanal/utils/ppd.py:160-259"]}
{"id": "C98", "title": "Marginals in the posterior predictive file are consistent", "statement": "For every axis, the marginal of the stored posterior predictive density (the curve drawn by ppd_plot) equals the mean over samples of the stored per-sample marginals, and integrating a stored marginal over its own grid gives the same number for every axis, namely the density integrated over the whole grid.", "quantifier": "all model densities, sample tables, numbers of axes and grids with at least one point", "why_tests_cant": "An equality between differently ordered sums over grids of any dimension; tests compare plots or a single low dimensional case within tolerance.", "anchors": ["src/gwkanal/utils/ppd.py:99-157", "src/gwkokab_scripts/ppd_plot.py:279-298"]}
{"id": "C99", "title": "ppd_ranges orders ranges as the parameters", "statement": "ppd_ranges returns, at each parameter's position, the range last given for that parameter; it raises exactly when a range names an unknown parameter; an accepted call has a range for every parameter.", "quantifier": "all lists of distinct parameters and all lists of ranges", "why_tests_cant": "A missing range is only seen when the incomplete list is used later; tests give complete lists.", "anchors": ["src/gwkanal/utils/common.py:81-111"]}
{"id": "C100", "title": "Analytic effective-spin prior is the exact density", "statement": "chi_effective_prior_from_isotropic_spins(chi_eff, q, amax) returns the density at chi_eff of (z1 + q z2)/(1 + q), where z1 and z2 are independent spin components with uniform magnitude up to amax and isotropic direction; the value is finite and non-negative.", "quantifier": "all mass ratios 0 < q <= 1, all maximal spins amax > 0, all real chi_eff", "why_tests_cant": "The formula has three branches, dilogarithms and regularised logarithms; a wrong term changes values slightly, and the exceptional points have measure zero so sampling never meets them.", "anchors": ["src/gwkokab/poisson_mean/_analytic_spin_prior.py:259-323"]}
{"id": "C101", "title": "Estimator configuration selects the estimator and settings it names", "statement": "get_selection_fn_and_poisson_mean_estimator, called with a JSON configuration, calls exactly the estimator named by estimator_type with the configured settings or their defaults (far_cut 1, snr_cut 10, num_samples 1000, time_scale 1), hands every remaining option to a custom estimator, and raises for unknown types, missing entries, and unusable custom modules; an option unknown to the estimator is rejected.", "quantifier": "all JSON configurations and all custom modules", "why_tests_cant": "Each setting name and default has to be followed for every estimator type; ignored options show no symptom.", "anchors": ["src/gwkokab/poisson_mean/poisson_factory.py:23-107", "src/gwkanal/core/sage.py:171-176"]}
{"id": "C102", "title": "Generated events have one column per declared parameter", "statement": "For every choice of command-line options, the population model that genie_n_pls_m_gs builds from its model file has components whose coordinates are exactly the parameters the generator declares, in the declared order, each with the hyper-parameters given for that quantity, component type and component number.", "quantifier": "all option combinations, component numbers and model files", "why_tests_cant": "There are over a million option combinations; each test fixes one, and a missing or permuted column still gives a file of the right kind.", "anchors": ["src/gwkanal/n_pls_m_gs/genie.py:365-1085", "src/gwkokab/models/hybrids/_npowerlawmgaussian.py"]}
{"id": "C103", "title": "Injections are read back as they were written", "statement": "When errors are added, the injections file that the generator wrote one row per event is read back as the same rows.", "quantifier": "all option combinations, all numbers of events and values", "why_tests_cant": "Reading reshapes a flat array by the declared number of parameters; a mismatch only fails for most event counts and silently permutes values for the others.", "anchors": ["src/gwkanal/core/population.py:300-312", "src/gwkanal/n_pls_m_gs/genie.py:1056-1090"]}
{"id": "C104", "title": "Generator hyper-parameters are sufficient, distinct and used", "statement": "The hyper-parameter names that genie_n_pls_m_gs expands from its options are distinct, a model file with a value for each of them suffices to build the model, and every one of the values reaches a distribution or a rate of the model.", "quantifier": "all option combinations, component numbers and model files", "why_tests_cant": "A declared but unread hyper-parameter, or one that is read but not declared, shows only for the option combination and component type concerned.", "anchors": ["src/gwkanal/n_pls_m_gs/genie.py:365-1085"]}
{"id": "C105", "title": "Every generated parameter has exactly one error function", "statement": "For all command-line options, after the generator has registered its error functions every declared parameter belongs to exactly one registered entry, in the declared order, and no entry of the error file is missing, whatever the error file contains.", "quantifier": "all admissible option combinations and error files", "why_tests_cant": "An uncovered column would be filled with uninitialised memory, which tests see only as plausible numbers.", "anchors": ["src/gwkanal/n_pls_m_gs/genie.py:196-1052", "src/gwkokab/models/wrappers.py:5-36", "src/gwkanal/core/population.py:281-357"]}
{"id": "C106", "title": "Saved posterior samples are physical", "statement": "Every sample in every posterior file that the generator writes has each spin component in [-1,1], each spin magnitude and eccentricity in [0,1], cosines and declinations in [-1,1], angles within one turn, redshift at least 0.001, a non-negative detection time, and effective spins in their physical range.", "quantifier": "all option combinations, error files, events, random keys and memory contents", "why_tests_cant": "Out-of-range samples are rare, and depend on the uninitialised buffer, the redrawing loop and the filter of incomplete rows together.", "anchors": ["src/gwkanal/n_pls_m_gs/genie.py:388-1052", "src/gwkanal/core/population.py:281-357", "src/gwkokab/errors.py:98-183"]}
{"id": "C107", "title": "Angle errors default to the full turn", "statement": "The errors of phi_1, phi_2, phi_12, mean anomaly, right ascension, polarisation and orbital phase are drawn from a normal distribution truncated to the bounds in the error file, by default to one full turn, and wrapped into that turn.", "quantifier": "all angles, error files and events", "why_tests_cant": "After wrapping, draws of an untruncated normal look like those of a truncated one; only their distribution differs.", "anchors": ["src/gwkanal/n_pls_m_gs/genie.py:761-821", "src/gwkanal/n_pls_m_gs/genie.py:873-883", "src/gwkanal/n_pls_m_gs/genie.py:921-931", "src/gwkanal/n_pls_m_gs/genie.py:1017-1052", "src/gwkanal/utils/regex.py:28-85"]}
{"id": "C108", "title": "Eccentricity errors outside [0,1] are discarded", "statement": "In genie_ecc_matters, draws of the eccentricity error within [0,1] are kept unchanged, and draws outside are marked undefined, so that the row is dropped from the posterior.", "quantifier": "all draws, error files and events", "why_tests_cant": "The mask and the replacement value have different element types; the result is a number that looks like an eccentricity.", "anchors": ["src/gwkanal/ecc_matters/genie.py:99-111", "src/gwkanal/core/population.py:334-340"]}
{"id": "C109", "title": "Registry finds what was registered", "statement": "After any sequence of registrations, ModelRegistry returns for a parameter name or tuple of names the model last registered under it, iterates in the order of first registration, and refuses anything that is neither a string nor a tuple of strings.", "quantifier": "all sequences of registrations and all lookups", "why_tests_cant": "Names and one-element tuples are interchangeable on registration but not on lookup; usual tests use one form only.", "anchors": ["src/gwkokab/models/wrappers.py:5-36"]}
{"id": "C110", "title": "Distances solve the Friedmann equation", "statement": "For non-negative matter and radiation densities in a flat or open universe, z_to_Dc differs from c times the integral of 1/H(z) by at most half a grid step times c/Ho, with H(z)^2 = Ho^2 (Om (1+z)^3 + Or (1+z)^4 + Ok (1+z)^2 + Ol) and Ok = 1 - Om - Or - Ol; z_to_DL differs from (1+z) times that distance, and dDLdz from its derivative, by bounds of the same order; z_to_E(0) = 1.", "quantifier": "all such densities, Hubble constants, grid extents and spacings, all redshifts up to max_z", "why_tests_cant": "A test compares a few redshifts of one cosmology with a reference table; the error of quadrature and of interpolation together, for every grid, is out of reach.", "anchors": ["src/gwkokab/cosmology/_cosmology.py: Cosmology"]}
{"id": "C111", "title": "Importance weights of the analytical likelihood", "statement": "For every event with mean m and Cholesky factor L, a sample drawn from the fitted normal has the importance weight population density times N(m, L L^T) divided by the density of the fitted normal, the samples are distributed by that fitted normal, and when the fitted covariance is not positive semi-definite the event's own normal is used and the weight is the population density.", "quantifier": "all dimensions, means, factors, population densities, gradients, Hessians and draws", "why_tests_cant": "The weights are right only if the same factor is used for drawing and for both densities; averages over random samples hide small mismatches.", "anchors": ["src/gwkokab/inference/analyticallikelihood.py:138-181", "src/gwkokab/inference/analyticallikelihood.py:296-373"]}
{"id": "C112", "title": "Analytical likelihood is exact for Gaussian populations", "statement": "If the log density of the population is a polynomial of degree two, and gradient and Hessian are its derivatives, the product of population density and event normal is a constant multiple of the fitted normal; every importance weight equals that constant, so the estimate of the event's integral is exact and its estimated error zero after any number of batches.", "quantifier": "all dimensions, means, factors, quadratic log densities, numbers of batches and draws", "why_tests_cant": "Needs the completion of the square in any dimension; a wrong sign of gradient or Hessian only inflates the variance, which tests do not notice.", "anchors": ["src/gwkokab/inference/analyticallikelihood.py:296-373"]}
{"id": "C113", "title": "Monk events are those of the file", "statement": "The Monk analysis accepts a file iff its name ends in .hdf5 or .h5 and every group whose name starts with event_ has a mean and a square covariance of the mean's leading dimension; it uses exactly those groups in the order of the file, never pairs the mean of one event with the covariance of another, and its log posterior is prior plus n log T plus the sum over these events of the log mean of their importance weights minus the expected rate, -inf if that is undefined.", "quantifier": "all files, parameter vectors, populations and random keys", "why_tests_cant": "Groups of other names, several events and mismatched shapes appear together only in real files.", "anchors": ["src/gwkanal/core/monk.py:27-74", "src/gwkanal/core/monk.py:149-205"]}
{"id": "C114", "title": "The full population models are products of their blocks", "statement": "PowerlawPeak, BrokenPowerlawTwoPeakFull and BrokenPowerlawTwoPeakMultiSpinMultiTiltFull can be built iff the parameters of the enabled blocks are given; the density of an event is the rate times the mass density times the densities of the enabled spin, tilt, eccentricity and redshift blocks, in that order of columns, and zero as soon as one coordinate leaves its range; integrating out the optional normalised blocks leaves the model built without them; eccentricities of bound orbits only (at most one) have positive density.", "quantifier": "all flags, parameters in the documented ranges and events (spins off 0 and 1 for the Beta spins)", "why_tests_cant": "The 16 flag combinations of the models change the columns of the event; a swapped block or a missing factor shows only against an independent density.", "anchors": ["src/gwkokab/models/hybrids/_powerlawpeak.py:20-94", "src/gwkokab/models/hybrids/_bp2pfull.py:20-103", "src/gwkokab/models/hybrids/_bp2pmultispinfull.py:745-843"]}
{"id": "C115", "title": "The eccentric population has the rate it is given", "statement": "EccentricityMattersModel gives every event exp(log_rate) times the Wysocki mass density times a truncated normal in eccentricity, zero outside mmin <= m2 <= m1 <= mmax and low <= e <= high, and integrates to exp(log_rate); the parameter names declared by the analyses and by the generator are exactly its arguments, and any other set of names is an error.", "quantifier": "all parameters with 0 < mmin < mmax, 0 < scale, low < high, both validation settings, all events with m1 different from mmin", "why_tests_cant": "Tests evaluate the density at a few points and never integrate it; argument lists are kept by hand in four places.", "anchors": ["src/gwkanal/ecc_matters/common.py:15-40", "src/gwkanal/ecc_matters/sage.py:20-27", "src/gwkanal/ecc_matters/genie.py:72-81"]}
{"id": "C116", "title": "The HMC step leaves the target invariant", "statement": "One step of the sampler _HMC is reversible for the density exp(logpdf): if the position is drawn from the target, the normal draws are independent and the uniform draw is uniform, then the positions before and after the step are exchangeable, E[g(before) f(after)] = E[f(before) g(after)] for all continuous f, g >= 0; in particular the position after the step is again distributed as the target. This holds for every step size, number of leapfrog steps and mass matrix, and whatever the gradient passed to the integrator is.", "quantifier": "all dimensions, mass matrices with a Cholesky factor, step sizes, numbers of leapfrog steps, continuous gradients, continuous target densities (possibly zero somewhere), continuous non-negative f and g", "why_tests_cant": "A biased kernel still moves and accepts; the stationary distribution can only be estimated by long runs on particular targets.", "anchors": ["src/gwkanal/core/flowMC_based.py:53-179"]}
{"id": "C117", "title": "Accepted sampler settings are usable", "statement": "The flowMC driver accepts a settings file only if every key without a default is given, every count is a positive integer, the hidden units are a list of positive integers and the sampler is named MALA or HMC; the mass matrix it hands to the sampler is symmetric positive definite with one row per parameter (so that its Cholesky factor and inverse exist and C116 applies), a number meaning that multiple of the identity and a list meaning that diagonal; an accepted run saves samples. The template written by flowMC_cfg_template is accepted.", "quantifier": "all settings files, all numbers of parameters", "why_tests_cant": "Tests run one or two settings files; a malformed one is only noticed if the run happens to fail.", "anchors": ["src/gwkanal/core/flowMC_based.py:822-935", "src/gwkanal/core/flowMC_based.py:286-293", "src/gwkokab_scripts/flowMC_cfg_template.py:9-48"]}
{"id": "C118", "title": "The diagonal mass matrix from a pilot run standardises the parameters", "statement": "diag_mass_matrix prints, for every parameter of the pilot run in order, the reciprocal of the unbiased sample variance plus eps, a finite positive number; the flowMC driver accepts the printed list as mass matrix, and the HMC sampler with mass 1/s_i^2 moves exactly as the sampler with unit mass moves on the target in the coordinates x_i/s_i, for the same random draws and any number of steps.", "quantifier": "all tables of samples with at least two rows and at least one column, all eps > 0, all dimensions, targets, gradients, step sizes and draws", "why_tests_cant": "Tests compare with one or two example files and cannot compare the samplers for all targets.", "anchors": ["src/gwkokab_scripts/diag_mass_matrix.py:5-57", "src/gwkanal/core/flowMC_based.py:53-179"]}
{"id": "C119", "title": "The PPD plot shows the mean, median and quantile bands of the saved marginals", "statement": "For every header of a file saved by the analysis, ppd_plot draws over the grid of that axis the mean over the posterior samples of their marginal densities, their median, and bands between their 5% and 95% and their 25% and 75% quantiles; the bands are nested and contain the median, do not depend on the order of the samples, and the band between quantiles q < q' of n samples contains more than (q'-q)(n-1)-1 of them; every figure only holds curves of the header it is named after.", "quantifier": "all densities, posterior samples, grids, headers, lists of files", "why_tests_cant": "Plots are looked at, not tested.", "anchors": ["src/gwkokab_scripts/ppd_plot.py:195-374", "src/gwkanal/utils/ppd.py:98-198"]}
{"id": "C120", "title": "flowMC_info describes the training run", "statement": "Row L of the table of flowMC_info gives the samples collected over all chains after L loops, those within the history window and the size of the training set; exactly the loop in which the window is first full is marked as saturated, and exactly the loops after which samples have left the window are marked as forgetting. Settings accepted by the driver remain accepted when the suggested values are taken over; the suggested training set fits into the suggested window and the batch into the training set.", "quantifier": "all positive settings, all numbers of loops and dimensions", "why_tests_cant": "Tests print the table for one settings file.", "anchors": ["src/gwkokab_scripts/flowMC_info.py:53-105", "src/gwkokab_scripts/flowMC_info.py:299-466"]}
{"id": "C121", "title": "Analytic joint prior of effective and precession spin is the exact density", "statement": "prior_chieff_chip_isotropic(chieff, chip, q, amax) returns the joint density at (chieff, chip) of chi_eff = (z1 + q z2)/(1 + q) and chi_p = max(rho1, q (3 + 4 q)/(4 + 3 q) rho2), where (z, rho) are the components along the orbital axis and in the orbital plane of two independent spins with uniform magnitude up to amax and isotropic direction. It is 0 for chip <= 0 and chip >= amax, never negative, and the same for chieff and -chieff.", "quantifier": "all mass ratios 0 < q <= 1, all maximal spins amax > 0, all real chieff and chip", "why_tests_cant": "Four windowed terms of complex dilogarithms with three branches each; a wrong branch or sign only shows in part of the plane, and its correct value is a double integral.", "anchors": ["src/gwkokab/poisson_mean/_analytic_spin_prior.py:25-141", "src/gwkokab/poisson_mean/_analytic_spin_prior.py:239-256"]}
{"id": "C122", "title": "The Gaussian spin model is the documented bivariate normal on the documented range", "statement": "GaussianSpinModel gives a pair of effective and precession spin the bivariate normal density with the documented mean vector and covariance matrix: each spin by itself is normal, the whole integrates to one over the plane, means, variances and covariance are mu_eff, mu_p, sigma_eff^2, sigma_p^2 and rho sigma_eff sigma_p, draws are the matching linear image of two standard normals, a correlation of one or more in size gives nan, and pairs outside chi_eff in [-1, 1], chi_p in [0, 1] have no density.", "quantifier": "all means, positive widths, correlations in (-1, 1) and pairs of spins", "why_tests_cant": "Moments and marginals are integrals over the plane, for every value of five parameters; a test compares a few values with another library.", "anchors": ["src/gwkokab/models/spin/_models.py:23-81"]}
{"id": "C123", "title": "A synthetic catalogue on disk is what was generated", "statement": "After PopulationFactory.produce every realization has its own files: the injections, their component labels, the unselected population, one posterior table per event with a complete row, and one group of means and covariances for exactly these events; the tables hold the drawn rows and the error functions' values for them; each realization has its own Poisson number of events, and the directory holds nothing else afterwards.", "quantifier": "all samplers, selection functions, error functions, numbers of realizations and events, and previous contents of the disk", "why_tests_cant": "The claim is about every path on the disk, for all numbers of realizations and events, including runs into a directory used before.", "anchors": ["src/gwkanal/core/population.py:91-377"]}
{"id": "C124", "title": "A trained detection network is used with the meaning it was trained for", "statement": "For a network that has learned its training data, whatever loss and target options were used, the selection value the estimators take from it is the value in the training data: the exponential of the neural log volume is the volume, and the exponential of the neural log detection probability is the probability.", "quantifier": "all networks, events, data values, losses and target options", "why_tests_cant": "The network file records whether targets were logarithms, but no test trains with one option and estimates with another; the result is a finite number either way.", "anchors": ["src/gwkokab/utils/train.py:26-53", "src/gwkokab/utils/train.py:93-160", "src/gwkokab/utils/train.py:238-312", "src/gwkokab/poisson_mean/_neural_vt.py:62-67", "src/gwkokab/poisson_mean/_neural_pdet.py:63-71"]}
{"id": "C125", "title": "The plotting scripts see the samples that were saved", "statement": "Reading a file of samples written by a sampler or by the catalogue generator gives every saved row, each value under the name of its parameter: in the convergence scripts (r_hat_plot, ess_plot, ess_evolution_plot), in chain_plot, corner_plot, corner_overplot and hist_overplot, in the scatter and joint plots, and in the readers of sage, of the catalogue generator and of discrete events.", "quantifier": "all tables of samples (any names without blanks or '#', any number of rows and columns), the three header styles the writers use, any number format that reads back what it wrote", "why_tests_cant": "The files are read by four different recipes and written with three header styles; a script that loses one sample or shifts the columns still draws a plausible figure, and no test reads a saved file back.", "anchors": ["src/gwkokab_scripts/r_hat_plot.py:105-106", "src/gwkokab_scripts/ess_plot.py:88-107", "src/gwkokab_scripts/ess_evolution_plot.py:123-124", "src/gwkokab_scripts/chain_plot.py:132-184", "src/gwkokab_scripts/corner_plot.py:145", "src/gwkokab_scripts/corner_overplot.py:161-180", "src/gwkokab_scripts/hist_overplot.py:137-141", "src/gwkokab_scripts/scatter2d.py:146-148", "src/gwkokab_scripts/joint_plot.py:118-122", "src/gwkanal/core/flowMC_based.py:706-803", "src/gwkanal/core/numpyro_based.py:31-55", "src/gwkanal/core/population.py:250-340"]}
{"id": "C126", "title": "Plots name what they show", "statement": "corner_overplot draws every column of every file under the name it has in that file; scatter2d draws every point in the colour and with the legend entry of its label, for every set of labels the catalogue generator can write; the curves of the convergence scripts carry the name of what they show.", "quantifier": "all orders of the columns, all lists of labels and points, palettes and legends, all numbers of chains and parameters", "why_tests_cant": "A wrong name does not change the picture, and with two columns, or with every component represented, the wrong code gives the right result.", "anchors": ["src/gwkokab_scripts/corner_overplot.py:174-188", "src/gwkokab_scripts/scatter2d.py:153-168", "src/gwkokab_scripts/r_hat_plot.py:132-146", "src/gwkokab_scripts/ess_evolution_plot.py:150-164"]}
{"id": "C127", "title": "Convergence diagnostics are those of the draws they are plotted against", "statement": "The point of r_hat_plot and ess_evolution_plot at iteration d is the diagnostic of the first d draws of every chain, the divisions are increasing and end with all draws; the columns of ess_plot are the effective sample sizes divided by the number of draws of the phase.", "quantifier": "all diagnostics, all chains of equal length, all numbers of divisions, all numbers of draws of the two phases", "why_tests_cant": "One draw more or less is invisible in a figure; the label-based slice of xarray includes its end where a python slice does not.", "anchors": ["src/gwkokab_scripts/r_hat_plot.py:124-146", "src/gwkokab_scripts/ess_evolution_plot.py:142-164", "src/gwkokab_scripts/ess_plot.py:88-127"]}
{"id": "C128", "title": "The remaining mass, redshift and spin conversions are the documented ones and undo each other", "statement": "Detector-frame and source-frame masses are related by the factor 1+z and invert each other; the reduced mass is the harmonic combination of the component masses and eta times the total mass; the difference ratio and the symmetric mass ratio determine each other; a mass and the mass ratio give the other mass; the spin difference computed from magnitudes and tilts is the documented mass-weighted difference and lies in [-1, 1]; the guarded denominators give +inf and nothing else does.", "quantifier": "all masses, redshifts above -1, mass ratios, spin magnitudes in [0,1] and tilt cosines in [-1,1]", "why_tests_cant": "The tests compare a few random values with the formula; round trips and guarded points are not covered for all arguments.", "anchors": ["src/gwkokab/utils/transformations.py:80-181", "src/gwkokab/utils/transformations.py:184-269"]}
{"id": "C129", "title": "A finished flowMC run leaves complete, distinctly named files", "statement": "At the end of a run every chain has its own training and production file, named so that sorting the names sorts the chains, holding under the labels all rows of the chain, loop by loop the local steps then the global ones; its log-densities likewise; the acceptance files hold for every step the mean over the chains at the steps of their own kind, -inf at the others and NaN beyond the end of a phase; no other file changes, and the files in the directory are those of the run.", "quantifier": "all numbers of chains, loops and steps, all sampler outputs, all earlier contents of the directory", "why_tests_cant": "Tests do not run the sampler; a wrong width of the number or a stale file only shows for particular chain counts or repeated runs.", "anchors": ["src/gwkanal/core/flowMC_based.py:566-644", "src/gwkanal/core/flowMC_based.py:653-758"]}
{"id": "C130", "title": "Every random draw of a run has its own key", "statement": "In one run of an analysis (Sage or Monk, with flowMC or NumPyro) the keys handed to the expected-count estimator, the likelihood, the initial positions, the flow network, and every call of the samplers are pairwise unrelated: none equals another or was obtained from it by splitting, so no random number is used for two purposes; runs with different seeds share no key. The same holds inside nested joint distributions, lazy joints, mixtures, the batches of NumPyro chains and the Monte-Carlo loops of all events. set_rng_key accepts exactly a key or a non-negative integer seed.", "quantifier": "for all seeds, numbers of loops, chains, devices, events and Monte-Carlo steps, all nestings of distributions, and all strategies that keep the keys they use apart from the one they return", "why_tests_cant": "Reusing a key never fails; it silently correlates numbers meant to be independent, and no output shows it.", "anchors": ["src/gwkanal/core/guru.py:230-261", "src/gwkanal/core/sage.py:158-207", "src/gwkanal/core/monk.py:147-196", "src/gwkanal/core/flowMC_based.py:288,596-644,907,936,968", "src/gwkanal/core/numpyro_based.py:58-156", "src/gwkokab/models/utils/_scaledmixture.py:144-231", "src/gwkanal/core/population.py:154-225,359-377"]}
{"id": "C131", "title": "A command runs the analysis its options describe", "statement": "Every command (f_sage_*, n_sage_*, f_monk_*, genie_*) accepts exactly the command lines that can be read as uses of its documented options - spelled in full or by an unambiguous beginning, values as the next word or after an equals sign - with readable values, no needed option missing, no two exclusive ones, and (for the analyses) a seed that is not negative. Every option then sets the one attribute it is for and no other; options left out have their documented default; the last use of a repeated option counts; order and spelling do not matter. The flowMC and NumPyro commands of an analysis differ only in the likelihood and the name. The parameters of an event are the masses and exactly what the --add-* options name, exclusive features are never on together, and the numbers of components are those given.", "quantifier": "for all commands, all command lines (lists of words), and all meanings of int() and float() on texts", "why_tests_cant": "There are over 30 options and 12 commands, so 2^30 combinations; a swapped or forgotten keyword argument in one of twelve main functions still runs and silently fits another model.", "anchors": ["pyproject.toml:129-143", "src/gwkanal/n_pls_m_gs/sage.py:25-156,549-748", "src/gwkanal/o3_n_pls_m_gs/sage.py:25-124,343-489", "src/gwkanal/o4_n_bpls_m_gs/sage.py:25-124,347-489", "src/gwkanal/ecc_matters/sage.py:38-97", "src/gwkanal/n_pls_m_gs/monk.py:16-90,470-613", "src/gwkanal/ecc_matters/monk.py:24-47", "src/gwkanal/core/guru.py:207-261,403-480", "src/gwkanal/core/sage.py:32-88,288-315", "src/gwkanal/core/monk.py:79-142,197-251", "src/gwkanal/utils/genie_parser.py:10-70"]}
{"id": "C132", "title": "The settings file of a NumPyro run is what NUTS and MCMC get", "statement": "A NumPyro analysis accepts a settings file exactly when it has the sections kernel and mcmc, uses only keywords that NUTS and MCMC know, gives chain_method, num_warmup and num_samples, asks for a whole number of chains other than zero (one if it does not say), and every group listed in dense_mass has elements. Then every setting of kernel but dense_mass reaches NUTS unchanged and every setting of mcmc but num_chains and chain_method reaches MCMC unchanged, and neither is given anything else. dense_mass is False when left out and otherwise the groups of the file as tuples. Exactly num_chains chains run, in batches that fit on the devices (or in one batch when one device runs them as a vector). The method is sequential for one chain and for one device without vectorized, parallel on several devices. A dense_mass list of names must not be cut into letters.", "quantifier": "for all settings files (JSON objects with distinct keys), all signatures of NUTS and MCMC, all numbers of devices", "why_tests_cant": "Tests run on one machine with one number of devices and one settings file; batches with a remainder, or a group given as a plain name, are not among them.", "anchors": ["src/gwkanal/core/numpyro_based.py:56-155", "src/gwkokab_scripts/numpyro_cfg_template.py:9-67"]}
{"id": "C133", "title": "Distributions return arrays of the shapes they declare", "statement": "A model is built exactly when its parameters broadcast to a common shape, which is its batch_shape; the two mass models normalised on a table are built for scalar parameters only. log_prob of values of shape s + event_shape has the common shape of s and batch_shape, and fails exactly when there is none. sample(key, shape) has the shape shape + batch_shape + event_shape. The same holds of JointDistribution, LazyJointDistribution and ScaledMixture when it holds of their parts.", "quantifier": "for all shapes of parameters, of values and of samples asked for, of any number of axes; for all numbers of parts", "why_tests_cant": "Tests use scalar parameters and one axis of samples. Batches of parameters, parameters of different numbers of axes, and two axes of samples are where the shapes go wrong.", "anchors": ["src/gwkokab/models/utils/_doubletruncpowerlaw.py:383-458", "src/gwkokab/models/mass/_models.py:49-332", "src/gwkokab/models/mass/_bpls.py:67-342", "src/gwkokab/models/redshift/_models.py:17-231", "src/gwkokab/models/spin/_models.py:271-335", "src/gwkokab/models/utils/_joindistribution.py:84-160", "src/gwkokab/models/utils/_lazyjointdistribution.py:188-268", "src/gwkokab/models/utils/_scaledmixture.py:49-247"]}
{"id": "C134", "title": "Rounding in the likelihood is bounded for every order of summation", "statement": "In floating-point arithmetic of any precision, the flowMC log posterior differs from its exact value, for the log densities, log priors, log constants and expected rate it is given, by at most an explicit bound: a sum over the events of the errors of log sum exp plus the growth of as many roundings as the longest chain of additions has. The bound does not depend on the spread of the weights of an event, and the part of it that comes from the weights grows with the logarithm of their number. The result is -inf exactly when some event has no unmasked sample: no underflow of the weights makes it so.", "quantifier": "for all precisions, all orders in which the entries of an array are added, all numbers of buckets, events and samples, all values in the format, all library exp and log of bounded error", "why_tests_cant": "XLA chooses the order of summation by device, size and version. A test sees one order on one machine and compares with a tolerance that nothing justifies.", "anchors": ["src/gwkokab/inference/poissonlikelihood_flowMC.py:72-121"]}
{"id": "C135", "title": "logsubexp is numerically stable", "statement": "logsubexp(a, b) computes log(exp(a) - exp(b)) with an error bounded for all floats a > b, as the docstring says. Proved instead: the error of the library functions is divided by 1 - exp(b - a), so the result is good for well separated arguments; for arguments closer than half the unit roundoff the result is -inf, although the exact value is a number, so no bound holds for all a > b; for a <= b no number is returned.", "quantifier": "for all precisions, all floats a and b, all library exp and log1p of bounded error; the failure for a correctly rounded exp", "why_tests_cant": "Tests use arguments that are far apart. The failure needs arguments that agree to more digits than the format has below one, as in a narrow truncation in the tail of a normal distribution.", "anchors": ["src/gwkokab/utils/math.py:124-141"]}
{"id": "C136", "title": "Buckets are as many as asked for and no wider than needed", "statement": "In the result of pad_and_stack every bucket is as wide as its longest event. Asked for m >= 1 buckets it makes m, or as many as there are different numbers of samples if that is fewer; no bucket is empty, and every event of a bucket has fewer samples than every event of a later bucket. Asked for none it raises, unless all events have the same number of samples. Without a number it makes the first m for which bucket m+1 would lower the share of padded entries, in percent, by less than the threshold, and one bucket per number of samples if there is no such m.", "quantifier": "for all events of any numbers of samples, all parallel sequences, all thresholds from 0 to 100, all numbers of buckets, all libraries returning classes of sorted data", "why_tests_cant": "Tests look at a few lists of sizes. Ties, single sizes and thresholds at which a step just fails to pay are rarely among them.", "anchors": ["src/gwkanal/utils/jenks.py:31-84", "src/gwkanal/utils/jenks.py:115-300", "src/gwkanal/utils/jenks.py:303-443"]}
{"id": "C137", "title": "Rounding in the expected rate and its variance is bounded", "statement": "In floating-point arithmetic of any precision, the expected rate that is computed from injections differs from its exact value by at most an explicit relative error, apart from underflow. Each of the two terms of the variance of the estimate has an explicit relative error; the variance is not negative if the share of the injections that were found is below one by more than these errors. In single precision, with up to a million injections found, chains of at most 64 additions and log weights of at most 64, the rate is right to one part in 30000 and the terms of the variance to one part in 7000, and the variance is not negative if at most 999 of 1000 injections were found. Without an injection of positive density both are zero.", "quantifier": "for all precisions, all orders in which the entries of an array are added, all numbers of injections, all values in the format, all library exp and log of bounded error", "why_tests_cant": "The variance is a difference of two numbers of nearly any size, and the sums are taken in an order that XLA chooses. A test sees one order and a few models.", "anchors": ["src/gwkokab/poisson_mean/_injection_based.py:72-138"]}
{"id": "C138", "title": "Rounding in the distance tables is bounded", "statement": "In floating-point arithmetic of any precision, the distance per redshift is computed to eleven roundings, every entry of the table of comoving distances is within fifteen roundings and the longest chain of additions of the exact sum of trapezoids, and the comoving and luminosity distances that are interpolated for a redshift inside the table differ from the integral of the Friedmann equation by at most an explicit bound: the error of the trapezoids and that of the roundings. In single precision, with the default table up to redshift 4.001 in steps of 0.001 and h additions in a row, the comoving distance is right to 2.3 + (h + 26) / 900 Mpc and the luminosity distance to 2.3 (1 + z) + (h + 28) / 180 Mpc.", "quantifier": "for all precisions, all nonnegative densities in the format, all tables of redshifts with positive steps, all orders in which cumsum adds, all redshifts of the format inside the table", "why_tests_cant": "The distances are sums of thousands of rounded terms in an order that XLA chooses. A test compares a few redshifts of one cosmology on one machine.", "anchors": ["src/gwkokab/cosmology/_cosmology.py:51-79", "src/gwkokab/cosmology/_cosmology.py:98-115"]}
{"id": "C139", "title": "The settings file of the data loader decides which samples are used", "statement": "A loader is made from exactly those settings files that are JSON objects with a pattern that matches at least one file and with readable settings: it has the settings of the file, and reads the matching files in order of their names, whatever order the directory lists them in. The catalogue has one event per file. Every entry of the settings file takes effect or is refused. The samples of an event do not depend on which other files are there.", "quantifier": "for all settings files, all directories and listings, all tables in the files, all seeds", "why_tests_cant": "The order in which a directory is listed depends on the file system, and a test uses one settings file without mistakes in it.", "anchors": ["src/gwkanal/core/inference_io/_discrete.py:25-184"]}
{"id": "C140", "title": "The environment variables set the version and the log as documented", "statement": "The version is 0.2.1 unless GWKOKAB_NIGHTLY_BUILD is 1 or true, in any mixture of capitals and small letters; then it names the commit, or the date if git has none, and it is always a version that packaging tools accept. Any other value than 0, 1, true and false is refused. GWKOKAB_LOG_LEVEL sets the level of the log, WARNING by default, and unknown levels are refused. The log file is in GWKOKAB_LOG_DIR. Each line names the file it comes from by the end of its path, below site-packages for an installed file.", "quantifier": "for all values of the variables, all outputs of git, all dates, all paths", "why_tests_cant": "Tests run in one environment, from one directory, and with the defaults.", "anchors": ["src/gwkokab/version.py:14-83", "src/gwkanal/utils/logger.py:23-82"]}
{"id": "C141", "title": "The 3D scatter scripts draw the points of the named columns", "statement": "scatter3d and batch_scatter3d draw one point for each row of each data file, at the values of the three named columns, coloured by the third of them or by the column with the index --color, with the labels and the colour bar that the options ask for. The batch script draws file by file in the order of the listing. No other file than the output changes, and a run that fails leaves an earlier output as it was.", "quantifier": "for all options, all tables with distinct column names, all files in the directory, all listings", "why_tests_cant": "Tests look at no figure, and never at a directory after a failed run.", "anchors": ["src/gwkokab_scripts/scatter3d.py:18-188", "src/gwkokab_scripts/batch_scatter3d.py:18-211"]}
{"id": "C142", "title": "Rounding in the truncated power law is bounded", "statement": "In floating-point arithmetic doubly_truncated_power_law_log_prob returns alpha log x minus the logarithm of the integral of t^alpha between low and high, up to an error bounded by the accuracy of the library's log and power, for alpha = -1 and for every other alpha, close to -1 as well.", "quantifier": "for all formats, all accuracies of log and power, all positive x, all bounds 0 < low < high, all alpha", "why_tests_cant": "The tests compare with numpyro at a few alphas; the cancellation close to -1 needs a window or an alpha that no test has.", "anchors": ["src/gwkokab/models/utils/_doubletruncpowerlaw.py:15-29", "src/gwkokab/models/utils/_doubletruncpowerlaw.py:96-99"]}
{"id": "C143", "title": "Parameter names and plain texts are the same keys", "statement": "A member of Parameters can be used wherever its name is: it is equal to the text it stands for and to no other, in both orders, with the same hash; a dictionary filled with keys of both kinds gives for either kind the value last assigned under the same name and never has two entries for it; membership and index in a list depend on the names only. No two members share a name, every member prints as its name and is found by it.", "quantifier": "for all members and texts, all hash functions of texts, all sequences of assignments, all lists", "why_tests_cant": "Tests use a few names in a few dictionaries; a clash of hashes or of two members needs all of them.", "anchors": ["src/gwkokab/parameters.py:8-58"]}
{"id": "C144", "title": "Rounding in the truncated normal is bounded", "statement": "In floating-point arithmetic truncnorm_logpdf returns the log density of the normal distribution truncated to the bounds, up to an error bounded by the accuracy of the library's log, log1p and ndtr and by the arguments, and -inf outside the bounds and for a scale that is not positive.", "quantifier": "for all formats, all accuracies of the library functions, all floats x, loc, scale, low < high", "why_tests_cant": "Tests compare with scipy at ordinary arguments; the cancellation needs bounds that are close together in units of the scale.", "anchors": ["src/gwkokab/utils/math.py:144-196"]}
{"id": "C145", "title": "The fallback dilogarithm is accurate", "statement": "For every real z >= 0, jaxspence(z) in exact arithmetic is Spence's function Li2(1 - z) up to an error of at most 4e-14.", "quantifier": "for all real z >= 0", "why_tests_cant": "No test calls jaxspence; a test grid would not show the two places where the quotient of the accelerated series has a vanishing denominator.", "anchors": ["src/gwkokab/poisson_mean/_analytic_spin_prior.py:144-236"]}
{"id": "C146", "title": "Distributions, constraints and transforms survive jax's flattening", "statement": "Flattening an instance of any distribution, constraint or transform class of the package as a jax pytree and unflattening it gives an object of the same class with the same attributes; a function mapped over the leaves reaches the parameters and the support alike and leaves the event slices as they are.", "quantifier": "for all instances of the 40 classes in the model, nested to any depth, and all functions on the leaves", "why_tests_cant": "A test sees a lost attribute only if it sends that class through jit or vmap and then reads that attribute.", "anchors": ["src/gwkokab/models/constraints.py:68-403", "src/gwkokab/models/transformations.py:144-240", "src/gwkokab/models/utils/_doubletruncpowerlaw.py:379-391", "src/gwkokab/models/utils/_lazyjointdistribution.py:18-87"]}
{"id": "C147", "title": "The settings template reads back as the settings, in blocks", "statement": "Whatever settings format_json_with_gaps is given, json.load of its output gives the same settings in the same order: the empty lines it inserts change nothing. For settings like those of the template, an empty line stands directly before the entry of each section's first name and nowhere else; in the template itself there are eight, and \"chain_batch_size\" is not taken for \"batch_size\".", "quantifier": "for all nested settings with texts in printable ASCII, including quotation marks and backslashes; the blocks for all flat settings whose text values are not names of sections", "why_tests_cant": "A test formats the one template of the package; that no settings make the inserted lines fall inside a text cannot be seen from examples.", "anchors": ["src/gwkokab_scripts/flowMC_cfg_template.py:8-50", "src/gwkokab_scripts/flowMC_cfg_template.py:53-80"]}
{"id": "C148", "title": "The Planck cosmologies give the distances of the Friedmann equation to a few kiloparsecs", "statement": "PLANCK_2015_Cosmology() and PLANCK_2018_Cosmology() are the flat universes with Ho = 67.74 and 67.32 km/s/Mpc and matter densities 0.3089 and 0.3158: for every redshift from 0 to 4, z_to_Dc is within 7 kpc and z_to_DL within 36 kpc of the distances of the Friedmann equation, and DL_to_z(z_to_DL(z)) = z. In every flat universe of matter and dark energy the error of both distances falls with the square of the grid step.", "quantifier": "for all redshifts from 0 to 4; the second-order bound for all matter densities in [0, 1], Hubble constants, grids and redshifts on the grid; exact arithmetic", "why_tests_cant": "A test compares a few redshifts with another library; swapped positional arguments of similar size, or an error between the grid points, need a bound for all redshifts.", "anchors": ["src/gwkokab/cosmology/_planck.py:8-35", "src/gwkokab/cosmology/_cosmology.py:28-111", "src/gwkokab/constants.py:10"]}
{"id": "C149", "title": "flowMC_info finds the number of parameters that the sampler will run with", "statement": "If the sampler accepts a settings file for a model with n parameters and its mass_matrix is a list (a diagonal or a matrix), infer_n_dims finds n. --n-dims comes before an entry n_dims of the file (cut towards zero if it is a float), which comes before the mass matrix; an entry that int() rejects is passed over. Suggestions are printed exactly when the number is positive. A file whose mass_matrix is a number, a file name or absent gives 0 and no suggestions.", "quantifier": "for all settings files, numbers of parameters, command lines and chain counts; any behaviour of int() on texts", "why_tests_cant": "A test tries one or two files; that the inferred number agrees with the one the driver checks needs every form of mass matrix that the driver accepts.", "anchors": ["src/gwkokab_scripts/flowMC_info.py:35-50", "src/gwkokab_scripts/flowMC_info.py:314", "src/gwkokab_scripts/flowMC_info.py:470-484"]}
{"id": "C150", "title": "A trained network is a continuous function of each row, the same after loading, and its reported losses are squared errors", "statement": "A network of make_model with sizes (in, out, width, depth) has depth + 1 layers and out outputs, computed from its weights and biases with negative values set to zero after every layer but the last. Inputs that differ by at most e in each coordinate give predictions that differ by at most e times the product of the layers' largest absolute row sums. predict gives for each row the output of the network on that row, for every batch size. A network that is saved with names and loaded again predicts the same. The losses per data instance that train_regressor plots are the squared differences between the targets and the network's estimates.", "quantifier": "for all weights, sizes, depths, inputs, batch sizes and data; exact arithmetic; eqx.nn.MLP and jax.lax.map as documented", "why_tests_cant": "Tests try one small network on one table; the continuity bound and the equality of the reloaded network concern all inputs and weights.", "anchors": ["src/gwkokab/utils/train.py:55-58", "src/gwkokab/utils/train.py:73-90", "src/gwkokab/utils/train.py:127-154", "src/gwkokab/utils/train.py:407-408"]}
{"id": "C151", "title": "From scattered targets the networks learn the mean", "statement": "Both losses are means over all rows and outputs. For rows with equal predictions c and targets y_1..y_n, mse_loss_fn is the variance of the targets plus (c - mean)^2; it is never negative, and zero exactly when every prediction is its target (any number of outputs). bce_logits_loss_fn is smallest only at the logit of the mean of the clipped targets; for found and missed injections (1 and 0) that is the fraction found, to eps. With train_in_log the value that is learned is the mean of the targets too.", "quantifier": "for all targets, numbers of rows and predictions, all eps in (0, 1/2); exact arithmetic", "why_tests_cant": "Tests of a training run see one noisy table and an optimiser that stops early; where the minimum of the loss lies is a statement about all predictions.", "anchors": ["src/gwkokab/utils/train.py:26-33", "src/gwkokab/utils/train.py:36-52"]}
