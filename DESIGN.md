# Formal model of gwkokab: design

The code under /repo is read as text; nothing is executed.  The model is written in Rocq (Coq 8.16.1)
under `rocq/theories`, as shallow, total Gallina functions that follow the Python function by
function and branch by branch.  Every definition cites the file and lines it models.

## Conventions

* Python exceptions are values: a function that may raise returns an `option`, `None` being any
  exception.  Which exception class is raised, and its message, are not modelled.
* Calls that leave the repository are parameters of the model (section variables, quantified in the
  theorems): samplers of NumPyro and flowMC, neural networks, jenkspy, the random permutation, HDF5
  files, user supplied callables.  What a theorem needs to know about them is a hypothesis in its
  statement.
* JAX transformations (`jit`, `vmap`, `lax.scan`, `lax.map`) are replaced by what they compute.
  Batch axes are modelled by quantifying over one element, except where the batch is the point
  (bucketing, batches of chains, training epochs, injections).
* dtypes and array shapes are modelled only where the code branches on them or a property speaks
  about a dimension.
* Random keys are positions in a tree of splits (Model_Key).

## Numbers

Floating-point numbers are modelled in one of two ways.

* `Model_X.X` = a real number, `+inf`, `-inf` or `NaN`, with the IEEE rules for special values but no
  rounding, no overflow and no signed zero.  Used wherever the code branches on or produces special
  values (log densities, likelihoods, estimators).
* plain `R` where the code is a formula on finite numbers inside a stated domain (coordinate
  transforms, power laws, integrals).

So most theorems speak about the exact-arithmetic meaning of the code. C134, C135, C137 and C138 speak about rounding: there every operation is rounded to the nearest number of a binary format (Flocq).

## Files

For each area: `Model_<area>.v` (definitions only), `Spec_<area>.v` (vocabulary of the statements,
written without the helpers of the model), `Proofs_<area>.v` (lemmas) and `Props_<area>.v` (the
property theorems, each followed by `Print Assumptions` and by an `Example ..._nonvacuous` showing a
concrete case that meets the hypotheses).

Theorem names start with the id of the property.  A suffix `_refuted` marks a proof that the
statement, or one reading of it, is false of the code, with a witness; `_partial` marks a proof of a
weaker statement than the one in properties.jsonl, with a comment saying what is missing.

## Trusted base

* Coq's kernel (8.16.1), all checks on; no plugins beyond those of the standard distribution.
* The axioms `Print Assumptions` lists under each theorem; the table at the end of this file has them
  for every theorem.  They are all of the standard library: the axioms of its construction of the
  reals (`ClassicalDedekindReals.sig_forall_dec`, `sig_not_dec`), functional extensionality and, where
  Coquelicot's integrals are used, `Classical_Prop.classic`; C111-C113 also use
  `ClassicalEpsilon.constructive_indefinite_description`, which makes the reals a ring of mathcomp.
  The development adds none.
* A checker of compiled files such as coqchk also names constants that a library hides behind a
  module signature: the operations of the standard library's reals, and bigop, finfun, finset, perm
  and similar constants of mathcomp, loaded for the matrices of C111-C113.  Those are definitions
  with bodies, not axioms, and no `Print Assumptions` lists them.
* That each Gallina definition says what the cited Python lines say, including the understanding of
  the external functions they call (jax.numpy, jax.scipy, numpyro, optax, h5py), as described in the
  comment at each definition.
* Coquelicot, as a library without axioms of its own, for integrals and derivatives, and mathcomp,
  likewise, for matrices.

Mutation tests of the theorems (edits of the model that a realistic bug would make, and which
theorems then fail) are logged in `seeded/LOG.jsonl`.

## Plan per property

Status `proved`: the statement in properties.jsonl is proved for the whole domain it names.  `partial`: part of
it is false of the code (a `_refuted` theorem gives the witness) or is proved on a smaller domain; the note says which.

| id | property | file | modelled and proved how | status | note |
|----|----|----|----|----|----|
| C01 | Log-likelihood does not depend on how events are bucketed and padded | Props_Likelihood | likelihood over X with buckets as padded rows and masks; equality with the sum over the unpadded events by induction over buckets and rows | proved | All bucketings, paddings and special values; end-to-end from the loaded events. |
| C02 | Bucketing posterior samples loses and duplicates nothing | Props_Likelihood | jenks bucketing over lists, break values an oracle; induction over the index list; permutation of the input | proved | jenkspy is an oracle assumed to return non-decreasing breaks; totality in automatic mode needs no assumption. |
| C03 | Streaming Monte-Carlo estimate equals the one-shot estimate | Props_MonteCarlo | streaming update over X; induction over the batches, real algebra on the running sums | proved | Batches of at least two samples with finite or -inf log weights; also lifted to the event loop and the whole analytical likelihood. |
| C04 | Monte-Carlo squared error is a valid variance | Props_MonteCarlo | algebra on sums of weights; Cauchy-Schwarz | proved |  |
| C05 | The adaptive Monte-Carlo loop stops only when the requested accuracy is reached | Props_MonteCarlo | while loop as fuelled iteration; counterexamples in both directions | partial | False of the code: the loop condition is inverted (it goes on while the error is small). Refuted in both directions; the theorem ending in _partial states what the loop does. |
| C06 | Posterior value handed to the sampler is finite or -inf | Props_Likelihood, Props_MonteCarlo | case analysis on the special values that reach nan_to_num | proved | flowMC back-end; the analytical likelihood ends in the same nan_to_num, see C06 theorems. |
| C07 | flowMC and NumPyro back-ends target the same posterior | Props_Likelihood, Props_NumpyroSites | both back-ends run on the same inputs; equality of the accumulated value wherever it is finite | proved | Wherever flowMC is finite; at -inf the NumPyro factor is a finite number (recorded as finding). For the priors the front end builds, dependent ones included, the sample sites are modelled too: each parameter once, after what it depends on, log densities adding up to the prior. |
| C08 | Expected-count estimator ignores processing batch size and injection order | Props_MonteCarlo | permutation invariance of logsumexp; independence of the batch split by induction over batches | proved |  |
| C09 | Variance of the expected-count estimator is never negative | Props_MonteCarlo | Cauchy-Schwarz on the weights | proved |  |
| C10 | Variance of the single-event Monte-Carlo likelihood is never negative | Props_Likelihood | Cauchy-Schwarz per event, sum over events | proved |  |
| C11 | Variance cut keeps exactly the samples below the threshold | Props_Likelihood | filter on the two arrays in step | proved |  |
| C12 | Splitting an array into batches and a remainder is lossless | Props_Likelihood | list splitting, induction over the batches | proved |  |
| C13 | Mixture density is the rate-weighted sum of component densities | Props_Joint | mixture of abstract component densities; exponentials of the log-sum | proved | For mixtures built with an explicit support, as stated. Without one the code masks nothing; see C13_default_support_refuted. |
| C14 | Joint density is the sum of marginal log-densities over disjoint consecutive slices | Props_Joint | joint of abstract marginals; induction over the marginals | proved |  |
| C15 | Flattening nested joints changes neither density nor support | Props_Joint | nested joints as trees; induction over the tree; witness for the support | partial | Size and density proved for all nestings. The support claim is false when a nested joint has an explicit support (refuted with a witness); proved when none has. |
| C16 | Lazy joint density follows the chain rule | Props_Joint | lazy joint as a graph of dependencies; induction along the order | proved | Density and support for marginals of any size; the sampler conditions on whole marginals while the density conditions on event coordinates, which agree for scalar marginals and are refuted to agree otherwise. |
| C17 | Dependency ordering of lazy priors is a valid topological order | Props_Guru | depth-first search with any neighbour order; invariant on finished nodes | proved | For every acyclic graph the model of _topological_sort returns each node once with every edge going forward, for any iteration order; the dependencies and order handed to LazyJointDistribution are well formed and give the chain-rule density and a sampler that never reads an undrawn value. |
| C18 | Cyclic lazy priors are rejected exactly when a cycle exists | Props_Guru | colouring invariant of the cycle check, both directions | proved | check_cycles returns true iff the graph has a directed cycle; a configuration with a dependency cycle is rejected. |
| C19 | Parameter names and vector coordinates stay aligned | Props_Guru | association lists; invariant of the three classification passes | proved | All clauses of the statement, for every configuration on which classify_model_parameters succeeds (unique keys, as in a dictionary). A constant also passed through Guru.constants is overridden by it, so those names are excluded from the constant clause. |
| C20 | No requested parameter is silently lost when resolving aliases | Props_Guru | witnesses for chains of aliases; case analysis on direct entries | partial | Refuted by two witnesses: an alias of an alias and an alias of an unknown name are dropped without an error. Proved for direct entries and aliases of direct entries. |
| C21 | Prior lookup prefers the exact name over patterns | Props_Guru | fold over the patterns; witnesses for falsy and alias entries | partial | Refuted: an exact entry with a falsy value (0) is shadowed by a pattern, and an alias requested before its target is overridden by a pattern. Proved for truthy non-alias entries; the outcomes for the other entries are characterised. |
| C22 | A model parameter without a prior is an error | Props_Guru | every name is in the matched dictionary; witness | partial | Refuted: match_all gives every requested name an entry, so the check never fires and a parameter without a prior becomes the constant None. The actual behaviour is proved. |
| C23 | Per-component parameters take precedence over shared ones and defaults | Props_Guru | case analysis on the dictionary lookups | partial | Precedence, irrelevance of other components and the error are proved for all dictionaries; the reading that a null under name_i falls back to name is refuted by a witness. |
| C24 | Removing the rates from posterior samples keeps names on their columns | Props_Guru | induction over the names with an invariant on the remaining columns; witness for shared columns | partial | Proved when names have distinct columns in range; refuted when two names share a column (aliases), where the column of another parameter is deleted. |
| C25 | Coordinates of the mass-spin-redshift mixture line up with the declared parameter list | Props_NPLMG | table of flags and distributions; the coordinate list for all flags and component numbers | partial | proved for all flags except those enabling both models of the spin magnitudes or both of the effective spin, where the events have 2 or 1 coordinates more than names (C25_both_alternatives_refuted) |
| C26 | Component masses and (chirp mass, symmetric mass ratio) are mutually inverse | Props_Transform | real algebra | proved | Both directions, for all masses 0 < m2 <= m1 and all Mc > 0, 0 < eta <= 1/4, over the reals. |
| C27 | Every mass-coordinate transform is invertible on its domain | Props_Transform | real algebra per transform | proved | Both composites are the identity for every transform, and the coordinates of the image are bounded; exact real arithmetic. RedshiftToLuminosityDistance is C61. |
| C28 | Every mass-coordinate transform reports the true Jacobian | Props_Transform | Coquelicot partial derivatives per transform | proved | The reported log\|det J\| is the log of the determinant of the partial derivatives, for every mass transform, on the interior of the domain; -inf on the equal-mass boundary of (Mc, eta). |
| C29 | Forward map lands in the declared codomain | Props_Transform | real inequalities per transform; two witnesses | partial | Refuted for two transforms: (m1,m2)->(m1,q) rejects the image of equal masses, and (m1,q)->(m1,m2) accepts q=0 whose image is not positive. Proved for the other seven transforms and for these two off those boundaries. |
| C30 | Effective spins are physical | Props_Transform | real inequalities | proved |  |
| C31 | Cartesian, polar and spherical coordinates round-trip | Props_Transform | trigonometry over R | proved |  |
| C32 | Truncated power law is normalised for every index | Props_Powerlaw | Coquelicot Riemann integral of the modelled log density | proved | All indices including -1, all 0 < low < high; exact Riemann integral of the modelled density, plus the shape (ratio of densities). |
| C33 | Power-law cdf and inverse cdf are mutually inverse and monotone | Props_Powerlaw | monotonicity and inverse on reals | partial | Proved for x >= 0: zero below low, one above high, derivative is the density, mutual inverse, strict monotonicity, inverse-transform sampling. Refuted: 'zero below low' for negative x. |
| C34 | Hand-written power-law derivatives are the true derivatives | Props_Powerlaw | derivatives of the modelled formulas against the hand-written rules; limits at index -1 | partial | Proved: all rules of the normalisation constant (at every index, the averaged rule at -1 is exact), all cdf rules inside the range and all icdf rules for alpha <> -1, and those for x/q, low (and high of icdf) at -1. Refuted: the cdf rule for high at -1 has the wrong sign; the averaged index rules of cdf and icdf at -1 are inexact; the cdf rule reports a slope outside the range. |
| C35 | Primary-mass/mass-ratio power law is normalised in two dimensions | Props_Mass | iterated Riemann integrals | proved | Iterated Riemann integral of the modelled log density equals one, with and without argument validation; zero outside the region when validated; shape in both variables. |
| C36 | Broken power law is continuous and normalised | Props_Mass | Riemann integral, continuity at the break | proved | Integral one, continuity on the whole positive axis including the break, and the power on either side. |
| C37 | Smoothing taper is a proper monotone window | Props_Mass | monotone real functions; continuity | proved | All six facts for all reals, plus continuity and that the log window is never NaN. |
| C38 | Truncated normal log density is normalised on all branches | Props_Mass | Gaussian integral proved from scratch; three branches shown equal | proved | Normalisation via the Gaussian integral (proved in Proofs_Gauss); the three branches equal; zero outside; normal shape. |
| C39 | Beta mean/variance conversion is a bijection | Props_Spin | real algebra; Beta moments by Riemann integrals for concentrations above one | partial | proved for every mean inside the range and every variance other than 0 and the maximal (mean-low)(high-mean), any location and positive scale; positivity equivalence for positive variances; at the maximal variance the way back is NaN (C39_boundary_refuted), so the claim for all variances is false; also shown to be the true moments of the Beta density for concentrations above one |
| C40 | Minimum-concentration check is exact | Props_Spin | real inequalities both ways | proved | for every mean, positive variance and minima |
| C41 | Dirichlet-element priors assemble a uniform Dirichlet | Props_Dirichlet | induction over the elements; product of conditional densities | partial | proved for all dimensions, orders and partial sums below one; at a point where the earlier elements already sum to one the joint density is NaN (C41_vertex_refuted), and an order beyond the last element is accepted with a NaN density (C41_order_unchecked_refuted) |
| C42 | Mixing fractions completed by the last component sum to one | Props_Spin | induction over the fractions | proved | C42_negative_refuted shows that fractions each in [0,1] are not enough |
| C43 | Vector order constraints mean pairwise order | Props_Constraints | induction over the vector | proved |  |
| C44 | Mass-sandwich constraint and its mass-ratio form describe the same region | Props_Constraints | real inequalities on X | proved |  |
| C45 | Equal constraints accept the same points | Props_Constraints | witnesses; induction for equal layouts | partial | False of the code: eq stops at the shorter list of parts and ignores slices (three refutations). Proved for constraints of the same layout. |
| C46 | All chains are saved exactly once | Props_Numpyro | batches as a list of key groups; induction over batches; files as tables | proved | the NumPyro sampler is an oracle; files are tables with a header; chain_method has no default (C46_chain_method_required_refuted) |
| C47 | The sampler executes the configured strategy sequence exactly | Props_FlowMC | strategy order as a list; execution trace of the loop | proved | for the order built by the bundle; an order passed directly to the sampler may be cut short (C47_custom_order_refuted) |
| C48 | Saved production samples are exactly the local-step samples | Props_FlowMC | buffers as arrays with a cursor; invariant of the write position | proved | stepper outputs are oracles with n_local_steps // local_thinning rows each |
| C49 | Leapfrog integration is time-reversible | Props_FlowMC | leapfrog map over a vector space of lists; algebraic reversibility | proved | for every quadratic kinetic energy and every potential; exact arithmetic |
| C50 | HMC kernel keeps the cached log-density consistent | Props_FlowMC | state invariant of the kernel over any number of steps | proved |  |
| C51 | Train/test split is a partition with non-empty parts | Props_Train | permutation oracle; lengths of the parts | proved | the permutation is an oracle; with at most one batch of data the test part is empty (C51_small), and the training part is not always a whole number of batches (C51_multiple_refuted) |
| C52 | Training on log targets preserves the order of the targets | Props_Train | monotonicity of the log; witness at zero | partial | proved for positive targets; a zero target becomes -tiny, above almost every other (C52_zero_refuted) |
| C53 | Injections found at stricter thresholds are found at looser ones | Props_Injections | per-row comparison on X | proved | a false-alarm-rate column with an upper-case name is copied under a key that is never read, so nothing is found (C53_upper_case_refuted) |
| C54 | Re-expressed injection draw density is the density in the requested coordinates | Props_Injections | densities with Jacobians per requested parametrisation | partial | proved for six mass parametrisations with effective, precessing or aligned spins and the luminosity distance; both detector-frame component masses fail or get a wrong factor, and the chirp mass without the mass ratio fails (C54_..._refuted) |
| C55 | Posterior-sample mass prior is the density in the requested coordinates | Props_Discrete | densities with Jacobians for every (prior, coordinates) pair | partial | proved for source-frame coordinates with every prior and detector-frame coordinates with detector-frame priors; for the other eight combinations the difference is not a constant (C55_other_coordinates_refuted) |
| C56 | Population rows have ordered masses and nothing else changed | Props_Population | row-wise swap; sampler an oracle | proved | sampler, selection and weighted choice are oracles; the swap moves only the masses, not the components' other parameters (C56_components_refuted) |
| C57 | Error injection uses a distinct random key per event and parameter group | Props_Population | key tree; distinctness by injectivity of split positions | proved | keys split partitionably; the keys do coincide with keys used to draw populations and the Poisson size (C57_population_keys_refuted) |
| C58 | File names always end in .dat | Props_Population | string suffix | proved | a name with another extension is rejected |
| C59 | Mean, variance and cdf of a mixture belong to its density | Props_Joint | finite mixtures of abstract distributions | partial | The cdf part is proved. Mean and variance are those of the sampled distribution only if the scales sum to one (proved then, refuted in general). |
| C60 | feasible_like of a composite constraint satisfies it | Props_Constraints | structural induction over the constraint | proved | Single events (no batch axes). |
| C61 | Redshift and luminosity distance determine each other | Props_Cosmology | piecewise-linear interpolation on strictly increasing tables | proved | All cosmologies with positive E(z)^2 for z >= 0, all grids, real arithmetic; flat cosmologies with non-negative densities are an instance. |
| C62 | Redshift-to-distance transform reports its Jacobian | Props_Cosmology | derivative against interpolated slope | partial | Refuted: z_to_DL interpolates linearly, so its slope differs from the reported derivative (witness inside the first cell). Proved that the reported value is the log-derivative of (1+z) Dc(z) for an exact comoving distance. |
| C63 | Comoving volume element and table | Props_Cosmology | formula over R; trapezoid table | proved |  |
| C64 | Block transform acts block by block | Props_Block | induction over blocks; witness for permuted slices | partial | Proved for slices that cut the event into consecutive pieces in order, for any number of blocks; refuted for disjoint slices listed in another order, where the output blocks are permuted and the inverse does not undo the map. |
| C65 | Unconstrained coordinates reach exactly the constrained set | Props_Block | real algebra; witnesses | partial | Into the constraint: proved for ordered vectors and the mass sandwich (first coordinate non-zero), refuted for the (m1, q) sandwich. Refuted: onto (the lower half of the mass range is never reached) and one-to-one (x and -x have the same image). |
| C66 | Wysocki mass model and joint mass samplers | Props_Mass | iterated Riemann integrals; samplers on all uniforms | proved | Exact iterated integral one, zero outside, uniform in the secondary; samples inside the support for every pair of uniforms. |
| C67 | Grid-normalised mass models are normalised on their own quadrature | Props_Mass, Props_MassBetween | trapezoid sums over the code's own nodes; interpolation exact at the nodes, and between them monotone like the sums | partial | Proved for smoothing narrower than the mass range: exact quadrature identities for both models, also with different minimum masses, where each factor has its own grid; between nodes above the first cell the bound by the change of the normaliser, which is one where the taper is one. Refuted: in the first cell the interpolated normaliser is too large by any factor (C67_first_cell_refuted), and a smoothing width larger than the mass range gives NaN (C67_wide_smoothing_refuted). |
| C68 | Skew-normal effective-spin density is normalised | Props_Spin | split at the mode, truncated normals of both halves | proved |  |
| C69 | Truncated-normal mixtures are normalised in every dimension | Props_Spin, Props_SpinValues | iterated integrals, induction over the dimension | proved | the integral over the box is iterated, one Riemann integral per coordinate |
| C70 | Adding spins to the two-peak mass model leaves its mass marginal unchanged | Props_MultiSpin, Props_MultiSpinFull | iterated integrals of the spin part; pointwise value by a common factor of all components | proved | the integral is iterated, one Riemann integral per coordinate; C70_component_spins gives the density at every point |
| C71 | Redshift models have the documented shape, normaliser and samples | Props_Redshift | Riemann integrals; inverse of the interpolated table; induction over the cells of the grid against the integral | partial | shape, log_norm and samples proved; log_prob itself is not normalised although documented so (C71_unnormalised_refuted); samples invert the tabulated distribution function; normaliser and samples differ from the exact integral and its quantiles by at most a multiple of the change of the density within one grid step (C71_log_norm_error, C71_sampling_error), which is small over short steps (C71_resolved) |
| C72 | Posterior tables hold exactly the error functions' values | Props_Population | tables as lists of rows; induction over the error functions | partial | proved for the columns that error functions cover; an uncovered column keeps uninitialised memory (C72_uncovered_refuted) |
| C73 | Means and covariances of simulated posteriors | Props_Population | exact moments of the rows used | partial | proved for two or more usable samples; one usable sample makes the run fail (C73_single_sample_refuted); with one parameter the covariance is a scalar instead of a matrix |
| C74 | Banana error returns masses with the perturbed chirp mass and mass ratio | Props_Errors | real algebra of the inverse mass transform | proved | exact arithmetic; a negative perturbed chirp mass gives negative, misordered, finite masses (C74_positive_refuted) |
| C75 | Truncated errors respect the cuts | Props_Errors | loop as fuelled iteration, partial correctness | proved | partial correctness; cuts that exclude the support make the call loop for ever (C75_terminates_refuted); sampler is an oracle |
| C76 | Spins and draw density of the injections are converted to magnitudes and tilts | Props_Injections | real algebra of Cartesian to spherical spins | partial | proved for files with all Cartesian components; a file without x and y components fails unless every injection is found, and a zero spin has a NaN tilt (C76_..._refuted) |
| C77 | Samples and log priors of the loader stay aligned, whatever the aliases | Props_Discrete | loader row by row; induction over columns | proved | rows treated one at a time; the random row draw is an oracle on positions |
| C78 | Distance and spin prior of a posterior sample are the declared densities | Props_Discrete | products of densities | proved | cosmology functions and the isotropic effective-spin densities are parameters of the theorem |
| C79 | An epoch visits every training row once and reports the mean loss | Props_Train | batches by induction; mean of batch means | partial | coverage proved; the reported loss is the mean when the batch size divides the rows, otherwise it is too large (C79_epoch_loss_refuted) |
| C80 | A saved network is loaded back unchanged | Props_Train | save and load as inverse tables | partial | proved for networks saved with names; one saved without names, as the signature allows, cannot be loaded (C80_names_refuted) |
| C81 | The learning rate warms up to its peak and decays to its floor over the training | Props_Train | piecewise schedule over R | partial | range, peak and floor proved; the floor is reached one warm-up before the end, and few epochs make the schedule fail (C81_early_refuted, C81_few_epochs_refuted); the steps counted are the updates made exactly when the batch size divides the rows or exceeds them (C81_steps, C81_steps_refuted); optax schedule modelled from its documentation |
| C82 | The binary cross-entropy with logits is a proper loss | Props_Train | real analysis of the softplus form | proved | optax.sigmoid_binary_cross_entropy modelled from its definition; one entry of the mean |
| C83 | The declared hyper-parameters of the power law / Gaussian mixture suffice to build it | Props_NPLMG | dictionaries as association lists; every lookup of every builder succeeds | partial | proved for at least one component; with none the mixture cannot be built (C83_no_component_refuted) |
| C84 | The declared hyper-parameters of the power law / Gaussian mixture are distinct, one per component | Props_NPLMG | names as numbered strings; injectivity of decimals | proved |  |
| C85 | Every declared hyper-parameter of the power law / Gaussian mixture has an effect on it | Props_NPLMG | changing one entry changes one argument | partial | proved except for location and scale of phi_12, ra, dec, cos_iota and psi, which are declared but have no effect (C85_ignored_refuted) |
| C86 | Proposals with inadmissible Beta spins are rejected by the power law / Gaussian analysis | Props_NPLMG | lookup of undeclared names | partial | refuted: the check reads names that are never declared, so it raises on every proposal (C86_check_raises_refuted); under the names it reads it decides as intended |
| C87 | The neural expected count is the rate-weighted mean of the selection function | Props_Neural | weighted means over X | partial | proved for the VT network and for components whose redshift model is a power law inside a joint distribution; the normaliser of a Madau-Dickinson model, or of a bare redshift model, is left out (C87_madau_refuted) |
| C88 | The variance of the neural expected count is that of a mean of independent samples | Props_Neural | algebra on X | proved |  |
| C89 | The network is fed parameters by name | Props_Neural | permutation of columns by name | proved |  |
| C90 | Smoothed mass models: event coordinates line up with the declared parameters | Props_Smoothed | flag table of both variants, all flags and component numbers | proved | two variants (power laws, broken power laws) with the exact list of distributions, arguments, fractions and scalars |
| C91 | Smoothed mass models: the declared hyper-parameters are exactly those that are used | Props_Smoothed | lookup and reconstruction of every argument | proved | sufficient, distinct, used, nothing else: proved; with zero components the model cannot be built (C91_no_component_refuted) |
| C92 | Smoothed mass models: Beta spin distributions of a proposal are checked | Props_Smoothed | positive_concentration on association lists | partial | only the primary spin is checked (C92_primary_checked); the statement for the secondary spin is refuted: its mean and variance never influence the verdict |
| C93 | Density of the smoothed hybrid mass models | Props_SmoothedDensity | mixture, taper and two trapezoid normalisers over X; interpolated normaliser affine between nodes | proved | density identified exactly, including the interpolated normaliser, for validated and unvalidated use; zero outside the limits |
| C94 | The smoothed hybrid mass models integrate to their rate | Props_SmoothedDensity | iterated integral over the other coordinates, trapezoid sums over the masses | partial | proved when m2min <= m1min (always so for NSmoothedPowerlawMSmoothedGaussian, where they are equal); refuted for NBrokenPowerlawMGaussian with m1min < m2min: the total falls short of the rate |
| C95 | Prior entries mean what they say | Props_Priors | inductive meaning relation; induction over the matched dictionary | proved | the meaning of an entry is a separate inductive relation, shown to be single-valued; success and failure characterised |
| C96 | Which prior configurations are accepted | Props_GuruAccept | both directions from the passes of the classifier, the cycle check and the topological sort | proved | exact characterisation; the rejection of arguments that name fixed or aliased parameters is stated as C96_fixed_or_alias_dependency_refuted (a finding) |
| C97 | Posterior predictive file holds the sample mean and the marginals | Props_PPD | tensors as shape plus entries by multi-index; the loop over axes split before and after the kept axis; trapezoids are linear functionals, hence exchangeable; row-major mesh by induction | proved | any number of axes; contents and refusal characterised |
| C98 | Marginals in the posterior predictive file are consistent | Props_PPD | as C97; sums and iterated trapezoids exchanged | proved | both statements for every axis |
| C99 | ppd_ranges orders ranges as the parameters | Props_PPD | induction over the list of ranges from the end; witness for the incomplete list | partial | order and refusal proved; the claim that an accepted call has a range for every parameter is refuted (C99_every_parameter_refuted): missing ranges stay None |
| C100 | Analytic effective-spin prior is the exact density | Props_ChiEff | first-principles density as an integral with finitely many singular points; explicit antiderivative with dilogarithm, continuous at the singular points; branches evaluated over X | partial | exact density and finiteness proved for every q, amax and chi_eff except two kinds of points, where the claim is refuted: +inf at \|chi_eff\| = q amax/(1+q) for q < 1/2, NaN at chi_eff = 0 for q = 1; the dilogarithm (scipy.special.spence) is assumed to be the real dilogarithm, which is shown to exist |
| C101 | Estimator configuration selects the estimator and settings it names | Props_Factory | case analysis on the configuration, both directions | partial | selection and settings characterised in both directions; the rejection of unknown options is refuted: built-in estimators drop them silently |
| C102 | Generated events have one column per declared parameter | Props_Genie | tables generated line by line from the source; model_components (the lemma of C25) for all 21 flags at once | partial | proved for all options except --add-truncated-normal-chi-p; with that option every component lacks the chi_p coordinate (C102_chi_p_refuted), because the option is not handed to the model |
| C103 | Injections are read back as they were written | Props_Genie | reshape as chunks of the concatenation; arithmetic of quotient and remainder | partial | proved unless chi_p is generated; then reading fails, or for special numbers of events mixes values of different events (C103_chi_p_refuted) |
| C104 | Generator hyper-parameters are sufficient, distinct and used | Props_Genie | as C83-C85 for the tables of the generator; witness of two files that differ in chi_p only | partial | distinctness and sufficiency proved for all options; every value reaches the model except those of chi_p, which have no effect (C104_chi_p_refuted) |
| C105 | Every generated parameter has exactly one error function | Props_Genie, Props_GenieSettings | registration with distinct keys appends; the keys of the calls concatenated, for all flags at once | proved | admissible options: those the argument parser accepts (the two groups of alternatives) |
| C106 | Saved posterior samples are physical | Props_Genie | composition of C72 (columns), C75 (cuts) and the registered functions, through a predicate on outputs of error functions | partial | proved for every parameter but the effective spins, whose draws are kept whatever they are unless the error file has cuts (C106_effective_spin_refuted); masses are not restricted. The redrawing loop is assumed to end |
| C107 | Angle errors default to the full turn | Props_Genie | unfolding of match_all for names no entry matches | partial | bounds in the file are used and wrapping is proved; the default bounds never take effect, the distribution is built with None (C107_default_refuted) |
| C108 | Eccentricity errors outside [0,1] are discarded | Props_Genie | case analysis over the values of X | partial | draws in range are kept and results are in range; draws outside become 1.0 instead of undefined (C108_discarded_refuted) |
| C109 | Registry finds what was registered | Props_Genie | induction over the registrations, against a specification by the last matching call | partial | proved for lookups by tuple; a lookup by name never succeeds (C109_by_name_refuted) |
| C110 | Distances solve the Friedmann equation | Props_Friedmann | trapezoidal rule and chord for a decreasing integrand, by induction over the grid; Coquelicot integrals | proved | flat or open universes; real arithmetic |
| C111 | Importance weights of the analytical likelihood | Props_MVN | mathcomp matrices over R; Mahalanobis distance as quadratic form of the inverse covariance, determinant of a triangular matrix | proved | gradient, Hessian, positivity test and Cholesky routine are arbitrary functions; the fitted factor is assumed lower triangular with positive diagonal |
| C112 | Analytical likelihood is exact for Gaussian populations | Props_MVN | completion of the square for matrices; the fitted mean is one Newton step, exact for polynomials of degree two; a constant sample has zero variance, over the pooled batches of C03 | proved | gradient and Hessian are assumed to be the derivatives, the fitted factor to factor the fitted covariance |
| C113 | Monk events are those of the file | Props_Monk | map_opt over the filtered groups; composition of C111 and C03 | proved | HDF5 files as lists of groups; a mean with more than one axis also passes the check of shapes |
| C114 | The full population models are products of their blocks | Props_Hybrid, Props_MultiSpinFull | blocks as leaves of the joint model; a lemma multiplies the densities of any list of blocks through the mixture (C13, C14), then each block by its own lemma; iterated integrals | partial | proved except for the eccentricity of PowerlawPeak and of the multi-spin model: their half normal gives unbound orbits a positive density (C114_bound_orbits_refuted, C114_multi_spin_bound_orbits_refuted); the mass densities are those of C67, PowerlawPeak's spins at exactly 0 or 1 are left out and betaln is assumed to be the logarithm of the Beta integral when spins are integrated out |
| C115 | The eccentric population has the rate it is given | Props_EccMatters | the same product lemma, C66 and C38 for the factors; lookup of argument names | proved | parameters are finite numbers; the line m1 = mmin is left out |
| C116 | The HMC step leaves the target invariant | Props_HMC | iterated integrals of uniformly continuous functions with bounded support, Fubini's theorem, invariance under affine moves of one coordinate; drifts, kicks, the flip of the momentum and multiplication by the Cholesky factor are compositions of such moves; the flipped leapfrog map is an involution (C49); the exchange of min(density, density after) | proved | exact arithmetic; the integral of a non-negative continuous function is the least upper bound of the iterated integrals of continuous functions with bounded support below it; the draws are independent standard normals and a uniform; linalg.solve and cholesky are exact; one step, for repeated steps see C50 |
| C117 | Accepted sampler settings are usable | Props_Settings | case analysis of the checks, key by key; Cholesky factorisation and inverse by induction on the dimension; C116 for the step | partial | proved for the keys, the counts, the sampler name, the template, numbers, diagonals and symmetric matrices; false in general: a matrix that is not symmetric, NaN and a text are accepted as mass matrix (C117_mass_matrix_refuted), and a thinning larger than the number of steps is accepted and gives an empty samples file (C117_empty_run_refuted); eigvalsh is assumed to give the eigenvalues of the symmetric part |
| C118 | The diagonal mass matrix from a pilot run standardises the parameters | Props_Scripts | direct computation; C117 for the acceptance; the rescaling of coordinates commutes with one leapfrog update, hence by induction with the integrator and with any number of steps | partial | proved for tables with at least two columns; false for one parameter: loadtxt drops the axis and the script refuses any number of samples (C118_one_parameter_refuted); exact arithmetic, the rounding of the printed numbers is left out |
| C119 | The PPD plot shows the mean, median and quantile bands of the saved marginals | Props_Scripts | insertion sort; sorted permutations are unique; monotonicity of linear interpolation; counting by filters; C97 and C98 for the contents of the file | partial | proved for one file and for files with the same headers; files with differently ordered headers are mixed in one figure (C119_mixed_headers_refuted); at least one posterior sample |
| C120 | flowMC_info describes the training run | Props_Scripts | integer arithmetic with the specification of the division; C117 for the acceptance | partial | proved except for the first loop with forgotten samples, which is not marked unless the samples of a loop divide the window (C120_forgetting_refuted), and for the batch size, which can exceed the training set (C120_batch_refuted) |
| C121 | Analytic joint prior of effective and precession spin is the exact density | Props_JointSpin | the three branches of g have the same complex derivative log (x - i beta) / (x - alpha - i), so G and F are continuous antiderivatives; each term is an integral over a window; substitution x = q z2; scaling by amax; the dilogarithm is constructed as an integral depending on a parameter | proved | the complex dilogarithm is a parameter with its derivative off the cut; such a function is constructed (C121_dilogarithm_exists); real arithmetic; nan_to_num is the identity on the branch taken |
| C122 | The Gaussian spin model is the documented bivariate normal on the documented range | Props_GaussianSpin | improper integrals from an antiderivative of a quadratic times the normal density, with explicit tails; the density factors into a marginal and a conditional | partial | density, marginals, moments and draws proved; the restriction to the documented ranges is false: every pair of real numbers has a positive density (C122_ranges_refuted) |
| C123 | A synthetic catalogue on disk is what was generated | Props_Produce | the disk as a function from paths to contents; loop invariants over realizations and events; distinctness of the formatted paths from the decimal digits | partial | files and their contents proved for every path; all realizations share one Poisson number of events (C123_one_size_refuted), and posteriors of an earlier run with more events stay in the directory (C123_second_run_refuted); np.savetxt and np.loadtxt are taken to keep the numbers |
| C124 | A trained detection network is used with the meaning it was trained for | Props_TrainUse | minimisers of the row losses (square; cross-entropy via its derivative), then case analysis of the estimators | partial | true for volumes learned as logarithms (if positive) and probabilities learned as they are; false for the other options, since the estimators never read the recorded is_log attribute: probabilities learned as logarithms make every expected count zero, logits (the recommended loss) are taken for probabilities, volumes learned as they are get exponentiated, a zero volume learned as a logarithm counts as almost one (the _refuted theorems) |
| C125 | The plotting scripts see the samples that were saved | Props_Plots | strings: splitting undoes joining for fields without blanks; then each reader on the lines each writer produces | partial | true for the convergence scripts and hist_overplot on sampler output, for sage and the catalogue generator, and for the scatter scripts and the reader of events on catalogue files; false for chain_plot, corner_plot and corner_overplot, which take the first sample for a header and lose it, and for the scatter scripts on sampler output: with the header '# a b' every name gets the values of the next parameter, with '#a b' the first column is not found (the _refuted theorems) |
| C126 | Plots name what they show | Props_Plots | permutations of distinct names; np.unique as a strictly increasing list | partial | corner_overplot reorders with the inverse permutation: right exactly when the orders differ by exchanges of pairs (C126_overplot_iff), wrong for three columns in cyclic order; scatter2d draws exactly when the labels are all numbers below some number (C126_scatter_iff), then with the right points, colours and names, but fails when a component has no event, or with a palette and legend given names it as another; the curves of the convergence scripts are parameters and carry names of chain files (the _refuted theorems) |
| C127 | Convergence diagnostics are those of the draws they are plotted against | Props_Plots | natural-number division; lists | partial | divisions and the last point proved; every earlier point at d shows the first d + 1 draws, because the label-based slice includes its end (C127_one_more_refuted); ess_plot divides the production column by the number of training draws, right exactly when both phases have equally many draws (C127_ess_per_draw) |
| C128 | The remaining mass, redshift and spin conversions are the documented ones and undo each other | Props_Conversions | field identities over finite numbers of the extended type | proved | finite arguments, exact arithmetic |
| C129 | A finished flowMC run leaves complete, distinctly named files | Props_Chains | invariant of the buffers over the training and production loops; the last of repeated writes to a path decides; decimal numerals of fixed width compare like numbers | partial | names, order, contents and acceptances proved; that the files are those of the run holds in a fresh directory (C129_clean) and fails after an earlier run with more chains (C129_stale_refuted); the loss file is not modelled |
| C130 | Every random draw of a run has its own key | Props_Draws | split tree of keys; ancestor relation; a key that is kept back and split again never meets those given out (one threading lemma used for every loop); families below unrelated roots are unrelated | partial | proved for Sage and Monk runs with both samplers, for joints, lazy joints, mixtures, NumPyro batches and the Monte-Carlo loops; the strategies of the flowMC library are assumed to keep their keys apart. Refuted for mock catalogues: the detected events are chosen with a key derived from that of the mixture components, the errors of the second realization use the keys that generate the populations, and replacements of rejected errors are drawn with children of a key already used |
| C131 | A command runs the analysis its options describe | Props_Command | argparse as a state machine over words; soundness and completeness against a grammar of written uses (induction over the uses and over the words), invariant of the namespace after any number of uses; the tables and main functions of every command by computation with symbolic values | partial | proved for all twelve commands and all command lines without a bare --. Refuted in two points: the numbers of components may be left out although the model then cannot be set up (TypeError), and the Monk commands accept --variance-cut-threshold without using it |
| C132 | The settings file of a NumPyro run is what NUTS and MCMC get | Props_NutsSettings | the dictionary operations of driver and _run_mcmc; acceptance as an iff against a relation in_section between file, section, key and value; the batches by arithmetic on the quotient and remainder; the template by applying the general theorems to it | partial | proved for every file, signature and number of devices, except the last sentence, which is refuted: a dense_mass list of names is cut into letters |
| C133 | Distributions return arrays of the shapes they declare | Props_Shapes | broadcasting is shown to be associative, commutative and idempotent with scalars as unit, so expressions in shapes are compared as sets; the result of broadcasting is characterised axis by axis (common_shape); the joint, lazy and mixture cases by induction over the parts with an invariant for the parts drawn so far | partial | log_prob: proved for all classes, refuted for a redshift model with a vector z_max and for a mixture of components with different batch shapes. sample: proved for the truncated power law, for scalar parameters of the mass-ratio, Wysocki and redshift models, for joint distributions without a batch, for lazy joint distributions with as many axes of samples as the event has plus one, and for mixtures. Refuted: with a batch the mass models ignore it, the redshift models fail, a joint distribution never draws what it declares, and a lazy one has too many columns for two axes of samples. log_norm of a redshift model with a vector kappa integrates over the wrong axis or fails |
| C134 | Rounding in the likelihood is bounded for every order of summation | Props_Rounding | with Flocq: rounding errors of additions by FLT_plus_error_N_ex; the sum by induction over the tree of additions; the exponentials by the mean value inequality, their errors added up by the entropy bound sum p log(1/p) <= log n (Gibbs) and by weighted AM-GM; the logarithm of a perturbed sum; log sum exp is Lipschitz in its arguments; the whole posterior is shown to be one tree of additions over the event terms | proved | Overflow is left out: the format has no largest number. The log densities, log reference priors, log prior, log constants and expected rate are taken as the floats they are, whatever their own errors. For single precision, which jax uses unless told otherwise and which nothing under src changes, C134_single and C134_single_million give numbers. The error of the weights grows with the logarithm of the number of samples; only the chains of additions enter linearly |
| C135 | logsubexp is numerically stable | Props_Rounding | with Flocq: the error of exp(b - a) is absolute and is divided by 1 - exp(b - a); for close arguments exp rounds to one, as the midpoint below one is crossed | partial | Refuted as stated: close arguments give -inf (C135_cancels, C135_stable_refuted). The error bound for separated arguments is proved for all precisions and library functions of bounded error |
| C136 | Buckets are as many as asked for and no wider than needed | Props_Buckets | searchsorted on sorted data is characterised by positions, so the breaks give strictly increasing ends; the loss of the sizes is shown to be the share of padded entries of the masks, as sizes are a multiple of the numbers of samples; the search for the first small step by induction | proved | jenkspy.jenks_breaks is assumed to return the minimum and strictly increasing upper ends of the classes (classes); C136_width needs no assumption. Percentages are exact fractions. The docstring of pad_and_stack says that the threshold determines the maximum size of the buckets, which the code does not do |
| C137 | Rounding in the expected rate and its variance is bounded | Props_Rate | on top of the error of log sum exp (C134): the exponential of a perturbed argument, the product and the quotient with underflow; doubling is exact and three times a float is a sum of two; the second term of the variance is at most the share found times the first (Cauchy-Schwarz) | proved | Overflow is left out: the format has no largest number. Log densities and log draw densities are taken as the floats they are |
| C138 | Rounding in the distance tables is bounded | Props_RoundedDistance | a relation 'equal up to k roundings' for nonnegative numbers, closed under sum, product, quotient and root, no cancellation because nothing is subtracted but neighbouring redshifts; induction over the table and over the tree of additions; error of the rounded chord; then the trapezoid and product tables of C110 | proved | Negative curvature densities are left out (the cosmologies of the repository have none). Overflow is left out, and products fused with sums. quadax.cumulative_trapezoid and jnp.interp are read from their published source: their code is not in the repository |
| C139 | The settings file of the data loader decides which samples are used | Props_LoaderFile | acceptance as an iff against a relation asks_for between the file and the loader; sorting texts gives the only increasing permutation; the catalogue by induction over the files | partial | Acceptance, settings, order and one event per file are proved. Refuted: an entry with a misspelled name is ignored (C139_ignored_refuted; C139_ignored says so for every unknown name), and the samples kept of a thinned event depend on the place of its file, so a new file changes them (C139_thinned_refuted); without thinning they do not (C139_alone) |
| C140 | The environment variables set the version and the log as documented | Props_Environment | capitals against a table of the letters, all 256 characters checked by computation and texts by induction; split against occurrences in the text by induction | partial | Everything about the version is proved, and which levels are accepted, the place of the log file and the paths. Refuted: the level without the variable is TRACE, not the documented WARNING (C140_preset, C140_preset_refuted); an absolute GWKOKAB_LOG_FILE leaves the log directory (C140_file_refuted; C140_file for every other name); with site-packages twice in a path the name of the file is lost (C140_path_refuted; C140_path otherwise) |
| C141 | The 3D scatter scripts draw the points of the named columns | Props_Scatter | the reading of columns is C125; induction over the rows and over the files | partial | Points, colours by the third column, labels of scatter3d, order of the batch and the other files are proved. Refuted: with --color both scripts always fail, because data[:, k] is no index of a DataFrame (C141_color_refuted); batch_scatter3d never sets the label of the third axis and draws no colour bar (C141_batch_labels_refuted); the output is emptied before anything is read, so a failing run destroys an earlier figure (C141_failed_refuted; C141_failed says when), as well as data named as output (C141_same_file), and a pattern that matches the output makes the batch fail (C141_batch_own_output) |
| C142 | Rounding in the truncated power law is bounded | Props_RoundedPower | the errors of both powers, of the subtraction and of the division are put together and carried through the logarithm; the rounding of 1 + alpha moves the integral by at most a factor (high or low)^difference, by comparison of the integrands | partial | C142_error and C142_error_minus_one give the bound, as long as the relative error of the normaliser is below one; C142_amplification says the errors of the powers count at most 1 + 2 / (\|1 + alpha\| log (high / low)) times. Refuted for all alpha: where \|1 + alpha\| times the logarithms of the bounds is within a third of the unit roundoff both powers round to one and the log density is +inf for every x (C142_cancels), e.g. alpha = -3/4 and mass ratios between one and the float below it (C142_refuted). Overflow and the custom derivative are outside the model |
| C143 | Parameter names and plain texts are the same keys | Props_Names | equality and hash are shown to depend on the text alone; induction over the entries and over the assignments; the members by cases | proved | for every hash function of texts, also one with clashes; dictionaries by assignments, without deletion |
| C144 | Rounding in the truncated normal is bounded | Props_RoundedNormal, Props_RoundedTail | each operation adds its rounding to the error so far; ndtr is Lipschitz with constant one by the mean value theorem; the error of the mass is carried through the logarithm; in the tails the errors of log_ndtr become a relative error of the mass and C135 bounds the rest | partial | C144_error is the bound for a mean between the bounds, as long as the error of the mass is below the mass; C144_outside is exact. Refuted for all arguments: bounds that round to the same number of standard deviations give +inf (C144_equal_ends, C144_refuted for every library), and so does a normal 2^(prec+3) times wider than the bounds with a correctly rounded ndtr (C144_wide_refuted). For a mean outside the bounds C144_tail_error gives the bound against the exact density for bounds that are moved by the rounding of the standardised values |
| C145 | The fallback dilogarithm is accurate | Props_Spence | partial sums of the logarithm and dilogarithm series bounded by the mean value theorem; the accelerated series is a finite identity between partial sums, with the error by a telescoping bound and a limit; reflection, inversion and Landen's identity by a vanishing derivative; PISQ_6 by rational arithmetic on 2 Li2(1/2) + ln(2)^2 | partial | C145_error is the bound for all real z >= 0 except within 1e-100 of 3 - sqrt 3 and 3 + sqrt 3, where 1 + 4 v + v^2 vanishes; C145_below_half and C145_around_one are sharper. Refuted for all z: the truncated numerator does not vanish there and the quotient is unbounded (C145_refuted). Missing: complex arguments and the roundings |
| C146 | Distributions, constraints and transforms survive jax's flattening | Props_PyTree | nested induction over objects; the field lists of all classes are compared by computation; paths of attributes, positions and keys as observations | partial | C146_roundtrip holds for all instances that contain no BlockTransform, C146_leaves says which leaves a mapped function reaches, C146_reached and C146_static say which attributes of each class are reached and which stay as they are, C146_slices and C146_support are the two consequences. Refuted in full: a BlockTransform loses its domain and codomain and falls back to constraints.real (C146_block_lost, C146_refuted); the support of DoublyTruncatedPowerLaw is static and keeps the old bounds (C146_powerlaw_refuted); the event slices of a _LazyConstraint are handed to jax and are no longer ints under jax.jit (C146_lazy_refuted) |
| C147 | The settings template reads back as the settings, in blocks | Props_Template | a lexer and a recursive-descent parser as the specification of json.load; after a line break the lexer is outside of texts, hence empty lines are harmless; nested induction for the tokens of json.dumps and for the parser; positions of the quotation marks in a line for the blocks | proved | C147_reads_back is for all settings, C147_blocks for settings like the template's, C147_template for the template itself. Numbers are kept as their literal text. C147_value_refuted: without the condition on text values the blocks are wrong, since the code looks for the quoted name anywhere in the line, also in the value |
| C148 | The Planck cosmologies give the distances of the Friedmann equation to a few kiloparsecs | Props_Planck | error of one trapezoid from a bound on the second derivative, by comparing derivatives twice; induction over the table; the derivatives of 1/E(z) are bounded by 3/2 and 15/4 in every flat universe of matter and dark energy | proved | C148_comoving and C148_luminosity are the second-order bounds (C110 has the first-order ones for universes with curvature and radiation), C148_planck_2015, C148_planck_2018 and C148_round_trip the two instances. Exact arithmetic; roundings are the subject of C138 |
| C149 | flowMC_info finds the number of parameters that the sampler will run with | Props_Dims | on the model of the driver's checks of C117: the length that read_mass compares with n_dims is the length of the list; case analysis on the entries | proved | C149_mass_matrix, C149_precedence, C149_float, C149_suggestions and C149_unknown are the claim. C149_number_refuted: the template of gwk_flowMC_cfg_template is accepted for every number of parameters, has a mass_matrix, and still gets the message to put one in (the message also names --n_dims, the option is --n-dims) |
| C150 | A trained network is a continuous function of each row, the same after loading, and its reported losses are squared errors | Props_Network | induction over the layers: a linear layer multiplies differences by its largest row sum, relu does not enlarge them; induction over the batches; the round trip of C80 | partial | C150_shape, C150_output, C150_lipschitz, C150_rows, C150_reloaded and C150_per_instance are the claim for one output and the mse loss. Refuted: with two or more output keys the script saves the network and then fails (C150_two_outputs_refuted); after bce_logits the plotted losses compare probabilities with logits (C150_logits_refuted); save_model does not record the activation, so a network with another one than relu changes (C150_activation_refuted). Exact arithmetic |
| C151 | From scattered targets the networks learn the mean | Props_Loss | the sum of squares around the mean; the mean of cross entropies is the cross entropy with the mean label; ln x < x - 1 for x <> 1, summed over the targets | partial | C151_mse, C151_entries, C151_zero, C151_bce and C151_detections are the claim. Refuted in the last sentence: with train_in_log the least loss is at the geometric mean, never above the mean and below it as soon as two targets differ (C151_log), for example 2 instead of 5/2 (C151_mean_refuted). Exact arithmetic; whether the optimiser reaches the minimum is not modelled |

## Code that is modelled, and code that is not

Paths are under /repo/src.

| source | model | left out |
|----|----|----|
| gwkokab/inference/poissonlikelihood_flowMC.py, _numpyro.py, _utils.py | Model_Likelihood, Model_NumpyroSites | jit, the NumPyro effect handlers (an oracle gives the value of each sample site) |
| gwkokab/inference/analyticallikelihood.py (loop and likelihood) | Model_MonteCarlo, Model_Likelihood | the multivariate-normal proposal densities are parameters (see Model_MVN) |
| gwkokab/poisson_mean/_injection_based.py | Model_MonteCarlo, Model_Injections | |
| gwkokab/poisson_mean/_injection_based_helper.py | Model_Injections | HDF5 access (a file is a table with attributes) |
| gwkokab/poisson_mean/_neural_vt.py, _neural_pdet.py | Model_Neural | evaluation of the network (an oracle) |
| gwkokab/poisson_mean/_analytic_spin_prior.py | Model_ChiEff (chi_effective_prior_from_isotropic_spins), Model_JointSpin (prior_chieff_chip_isotropic, F, G, g, I1 to I4) | scipy's dilogarithm (a parameter); jaxspence is modelled separately (it is not called: np is numpy); prior_chieff_chip_isotropic is a parameter of Model_Discrete and Model_Injections |
| gwkokab/poisson_mean/poisson_factory.py | Model_Factory | importing python files (an oracle) |
| gwkokab/models/constraints.py | Model_Constraints | tree flattening for jit |
| gwkokab/models/transformations.py, gwkokab/utils/transformations.py | Model_Transform, Model_Coordinates | batch axes |
| gwkokab/models/utils/ (joint, lazy joint, scaled mixture) | Model_Joint | enum support, shapes |
| gwkokab/models/utils/_doubletruncpowerlaw.py | Model_Powerlaw | the JVP machinery of JAX (the rules themselves are modelled) |
| gwkokab/models/mass/ | Model_Mass | batch shapes |
| gwkokab/models/spin/, gwkokab/models/sundry/ | Model_Spin | batch shapes |
| gwkokab/models/redshift/ | Model_Redshift | |
| gwkokab/models/hybrids/_ncombination.py, _npowerlawmgaussian.py | Model_NPLMG | tensor shapes of the arguments |
| gwkokab/models/hybrids/_o3_n_pls_m_gs.py, _o4_n_bpls_m_gs.py, _utils.py | Model_Smoothed (construction), Model_SmoothedDensity (density) | |
| gwkokab/models/hybrids/_bp2pmultispinfull.py | Model_MultiSpin, Model_MultiSpinFull, Model_Spin | |
| gwkokab/cosmology/_cosmology.py | Model_Cosmology | the numerical constants |
| gwkokab/errors.py | Model_Errors | random number generation (an oracle per key) |
| gwkokab/utils/math.py, kernel.py, tools.py | Model_Mass, Model_Spin, Model_Jenks | |
| gwkokab/utils/train.py | Model_Train | gradient steps (an oracle), progress display |
| gwkanal/core/guru.py | Model_Graph, Model_Guru | logging; the argument parser is in Model_Command |
| gwkanal/core/sage.py | Model_Sage | file names; the argument parser is in Model_Command |
| gwkanal/core/numpyro_based.py | Model_Numpyro | the sampler (an oracle) |
| gwkanal/core/flowMC_based.py, gwkokab_scripts/flowMC_cfg_template.py | Model_FlowMC (integrals for the HMC step: Spec_Invariance), Model_Settings | the normalising flow and its training (oracles), plots |
| gwkokab_scripts/diag_mass_matrix.py, ppd_plot.py, flowMC_info.py | Model_Scripts | argument parsing, colours and labels, printing and its rounding, the memory notes |
| gwkanal/core/population.py | Model_Population | progress display |
| gwkanal/core/inference_io/_discrete.py | Model_Discrete | file formats (a file is a table) |
| gwkanal/utils/jenks.py | Model_Jenks, Model_Sage | jenkspy (an oracle) |
| gwkanal/utils/regex.py, priors.py | Model_Config, Model_Dirichlet | regular expressions (a predicate `fullmatch`) |
| gwkanal/utils/checks.py, common.py | Model_Spin, Model_NPLMG, Model_Config, Model_PPD | |
| gwkanal/utils/ppd.py | Model_PPD | batching, HDF5 (a file is a record of its datasets) |
| gwkanal/n_pls_m_gs/sage.py, o3_n_pls_m_gs/sage.py, o4_n_bpls_m_gs/sage.py | Model_NPLMG, Model_Smoothed | the command lines are in Model_Command |
| gwkanal/n_pls_m_gs/genie.py, gwkanal/ecc_matters/genie.py (error function) | Model_Genie | the command lines are in Model_Command; the tables were generated from the source and are cited line by line |
| gwkokab/models/wrappers.py | Model_Genie | |
| gwkanal/core/monk.py (_read_mean_covariances, run) | Model_Monk | HDF5 access, configuration of the sampler |
| gwkokab/inference/analyticallikelihood.py (fit, samples, weights) | Model_MVN, Model_RealRing | automatic differentiation and the Cholesky routines are arbitrary functions; singular matrices are left as they are by the inverse |
| gwkanal/n_pls_m_gs/monk.py | Model_NPLMG | its tables are those of sage.py |
| gwkokab/models/hybrids/_powerlawpeak.py, _bp2pfull.py | Model_Hybrid | samplers, batch shapes |
| gwkanal/ecc_matters/common.py, sage.py, monk.py | Model_Hybrid | the command lines are in Model_Command |
| gwkokab/models/spin/_models.py:23-81 | Model_GaussianSpin | validation of the covariance matrix, batch shapes |
| gwkanal/core/population.py (PopulationFactory) | Model_Produce | directories, number formatting |
| gwkokab/utils/train.py (losses, targets, choice of the loss) | Model_TrainUse | optimisation: a network that has learned its data is assumed |
| gwkokab_scripts (reading in the plotting scripts, corner_overplot's columns, scatter2d's groups, divisions of the diagnostics) | Model_Plots | pandas and numpy only for the options used; drawing; arviz's diagnostics as an argument |
| gwkanal/core/guru.py:230-261, core/sage.py:72,158-207, core/monk.py:134-196, core/flowMC_based.py:288-296,907-972, core/numpyro_based.py:58-156 | Model_Draws | which key is handed to what; keys are positions in the split tree, hash collisions of the generator are not modelled; strategies of flowMC, mcmc.run and leaf distributions are known by the key they get; self.seed as used by numpy in the data loader is not modelled here |
| gwkokab/models/utils/_scaledmixture.py:144-231 | Model_Draws | component_sample and sample_with_intermediates with sample_shape () |
| gwkanal/*/sage.py, monk.py, genie.py (argument parsers, main, __init__), core/guru.py:207-261,403-480, core/sage.py:32-88,288-315, core/monk.py:79-142,197-251, utils/genie_parser.py | Model_Command | argparse for parsers without positional arguments (abbreviations, =, append, required, exclusive groups) as documented; not a bare --, option files, messages; int() and float() are parameters; functions and classes by name; the data loader by the name of its configuration file |
| gwkanal/core/numpyro_based.py:56-155, gwkokab_scripts/numpyro_cfg_template.py | Model_NutsSettings | the keyword parameters of NUTS and MCMC are predicates; what the constructors do with the values is left out; a Boolean num_chains is passed as the integer it equals |
| gwkokab/inference/poissonlikelihood_flowMC.py (likelihood_fn with rounding) | Model_Rounding | binary format without largest number; exp, log and the order of summation are parameters |
| gwkokab/utils/math.py (logsubexp with rounding) | Model_Rounding | exp and log1p are parameters |
| gwkokab/poisson_mean/_injection_based.py (_poisson_mean and _variance_of_estimator with rounding) | Model_Rounding | binary format without largest number; exp, log and the order of summation are parameters |
| gwkokab/cosmology/_cosmology.py (z_to_E, dDcdz, _Dc, z_to_Dc, z_to_DL, DL with rounding) | Model_RoundedDistance | binary format without largest number; the order of cumsum is a parameter |
| gwkanal/core/inference_io/_discrete.py (fields, from_json, and load for the files it names) | Model_LoaderFile | glob and pydantic's reading of integers from texts are parameters; pydantic's conversions as documented for its default mode; messages |
| gwkokab/version.py, gwkanal/utils/logger.py (custom_format, set_log_level) | Model_Environment | git, the clock and relpath are parameters; loguru; failures of makedirs other than the empty name; log_gwkokab_info and log_device_info, which only print |
| gwkokab_scripts/scatter3d.py, batch_scatter3d.py | Model_Scatter | matplotlib beyond points, colours, labels and bar; sizes, markers, fonts, resolution; paths that cannot be written |
| gwkokab/models/utils/_doubletruncpowerlaw.py (value in floating point) | Model_RoundedPower | overflow; the derivative in floating point |
| gwkokab/parameters.py | Model_Names | the reprs of the members; deletion from dictionaries; pickling |
| gwkokab/utils/math.py truncnorm_logpdf (in floating point) | Model_RoundedNormal | overflow |
| gwkokab/poisson_mean/_analytic_spin_prior.py jaxspence, cspence_series0, cspence_series1 | Model_Spence | complex arguments, roundings; the unused stopping conditions |
| gwkokab_scripts/flowMC_cfg_template.py: get_cfg, format_json_with_gaps | Model_Template | Python's json.dumps and str.splitlines modelled for printable ASCII; a number is its literal text; json.load is specified in Spec_Template; writing the file |
| gwkokab/cosmology/_planck.py; SPEED_OF_LIGHT of gwkokab/constants.py | Model_Planck | rounding of the decimal constants to floats |
| gwkokab_scripts/flowMC_info.py infer_n_dims, choice of suggestions in main | Model_Dims | int() of a text (arbitrary) |
| gwkokab/utils/train.py make_model, predict, loss per data instance | Model_Network | initial weights, gradients and optimiser, roundings, the drawing of the figures |
| gwkokab/utils/train.py mse_loss_fn, bce_logits_loss_fn on batches | Model_Loss | gradients, roundings |
| tree_flatten of gwkokab/models/constraints.py, transformations.py and _lazyjointdistribution.py; pytree_data_fields and pytree_aux_fields of all distributions | Model_PyTree | jax's and numpyro's own code (flatten, setattr on unflatten) is modelled from its documented behaviour; order of dictionary keys; _validate_args |
| the shapes of log_prob and sample in gwkokab/models (files listed at C133) | Model_Shapes | values are left out; promote_shapes, Distribution.expand, jnp.stack, linspace, trapezoid, interp, reshape and concatenate by their documented shape rules; the multi-spin model and numpyro's own distributions are left out |

Not modelled: the drawing part of the plotting scripts under gwkokab_scripts (what they read and name is in Model_Plots, Model_Scripts) and their argument parsers, the
logger, version and package metadata, docs and tests, gwkanal/utils/ppd_parser.py.

## Assumptions per theorem

What `Print Assumptions` lists, for every theorem named in MANIFEST.json, grouped by the set of axioms.

* closed under the global context (no axioms) -- 192 theorems: C02_pad_and_stack_lossless, C02_automatic_mode_total, C12_batch_and_remainder_lossless, C14_joint_support_is_conjunction, C14_slices_partition_the_event, C14_every_point_is_cut, C14_sample_is_cut_like_the_density, C15_deep_flattening_leaves_no_joint, C16_lazy_support_of_conditionals, C16_sampling_reads_only_drawn_values, C16_density_and_sampler_condition_alike, C45_equal_constraints_agree_partial, C60_feasible_like_accepted, C17_topological_order, C17_lazy_prior_well_formed, C18_cycle_check_exact, C18_cyclic_configuration_rejected, C19_names_and_coordinates_aligned, C20_direct_entries_kept_partial, C23_component_parameter_precedence, C23_other_components_irrelevant, C23_null_hides_shared_value_refuted, C24_wiping_rates_distinct_columns_partial, C24_shared_column_refuted, C64_blockwise, C64_codomain, C46_chains_saved, C46_saved_exactly, C46_paths_distinct, C46_paths, C46_chain_method_required_refuted, C47_sequence, C47_custom_order_refuted, C47_unknown_rejected, C48_saved_samples, C48_complete, C58_extension, C58_rejected, C75_fresh_keys, C53_upper_case_refuted, C54_coordinates, C79_cover, C80_round_trip, C80_attributes, C80_names_refuted, C80_extension, C81_steps, C81_steps_refuted, C25_coordinates, C25_both_alternatives_refuted, C83_declared_suffice, C83_no_component_refuted, C84_names_distinct, C84_one_name_per_component, C85_values_reach_partial, C85_ignored_refuted, C86_check_raises_refuted, C86_check_when_named_partial, C89_setup, C90_coordinates, C91_sufficient, C91_no_component_refuted, C91_distinct, C91_used, C91_nothing_else, C92_primary_checked, C92_secondary_unchecked_refuted, C95_meaning_unique, C96_accepted_iff, C96_fixed_or_alias_dependency_refuted, C99_ranges_in_parameter_order, C99_unknown_refused, C101_selection_sound, C101_selection_complete, C101_unknown_option_refuted, C104_names_distinct, C109_registered_partial, C109_refused, C109_by_name_refuted, C113_accepted, C113_events, C120_table, C120_forgetting, C120_forgetting_refuted, C120_batch_refuted, C123_paths, C125_chains, C125_after_header, C125_hist, C125_events, C125_first_sample_refuted, C125_shifted_refuted, C125_first_column_refuted, C125_catalogue_refuted, C126_overplot_iff, C126_overplot_same, C126_overplot_refuted, C126_scatter_iff, C126_scatter_groups, C126_scatter_refuted, C126_curves_refuted, C127_points, C127_one_more_refuted, C129_names, C129_order, C130_set_key, C130_reads, C130_run, C130_purposes, C130_chains, C130_joint, C130_lazy, C130_mixture, C130_nested, C130_catalogue_refuted, C131_accepts, C131_settings, C131_analysis, C131_order, C131_backends, C131_parameters, C131_compatible, C131_counts, C131_counts_refuted, C131_variance_cut_refuted, C132_accepts, C132_kernel, C132_dense, C132_names_refuted, C132_mcmc, C132_chains, C132_method, C133_batch, C133_density, C133_z_max_refuted, C133_draws, C133_draws_refuted, C133_log_norm, C133_log_norm_refuted, C133_tabulated, C133_joint, C133_joint_refuted, C133_mixture, C133_mixture_refuted, C133_lazy_density, C133_lazy_draws, C133_lazy_refuted, C136_width, C136_number, C136_none, C136_automatic, C140_release, C140_nightly, C140_refused, C140_well_formed, C140_level, C140_preset, C140_preset_refuted, C140_file, C140_file_refuted, C140_path, C140_path_elsewhere, C140_path_refuted, C141_points, C141_color_refuted, C141_failed, C141_failed_refuted, C141_same_file, C141_batch, C141_batch_labels_refuted, C141_batch_own_output, C143_equal, C143_hash, C143_dictionary, C143_no_double, C143_index, C143_members, C146_roundtrip, C146_leaves, C146_slices, C146_reached, C146_static, C146_support, C146_powerlaw_refuted, C146_lazy_refuted, C146_block_lost, C146_refuted, C147_reads_back, C147_blocks, C147_template, C147_value_refuted, C150_rows
* `ClassicalDedekindReals.sig_forall_dec` -- 9 theorems: C20_alias_chain_refuted, C20_dangling_alias_refuted, C41_errors, C76_aligned_file_refuted, C76_masked, C99_every_parameter_refuted, C113_data, C150_per_instance, C150_two_outputs_refuted
* `ClassicalDedekindReals.sig_forall_dec`, `FunctionalExtensionality.functional_extensionality_dep` -- 125 theorems: C07_sites_are_the_prior, C11_variance_cut_exact, C11_no_samples_is_error, C14_joint_density_is_sum_over_pieces, C15_flattening_preserves_size_and_density, C15_flattening_preserves_default_supports_partial, C15_explicit_support_is_dropped_refuted, C16_lazy_density_chain_rule, C16_vector_marginals_refuted, C43_vector_constraints_are_pairwise, C43_feasible_values_accepted, C44_regions, C44_ratio_form_same_region, C44_nan_rejected, C44_feasible_values_accepted, C45_slices_ignored_refuted, C45_extra_parts_ignored_refuted, C45_extra_alternatives_ignored_refuted, C17_prior_density_and_sampling, C21_zero_value_refuted, C21_alias_overridden_refuted, C21_exact_entry_used_partial, C21_first_pattern_otherwise_partial, C21_alias_outcomes_partial, C22_missing_prior_accepted_refuted, C22_missing_prior_becomes_none_partial, C22_every_parameter_matched_partial, C22_only_bad_distributions_raise_partial, C27_image, C30_effective_spin_between_components, C30_spins_recovered, C30_effective_spin_from_tilts, C64_inverse_and_jacobian, C39_concentrations_and_back, C39_moments_and_back, C39_positive_exactly, C39_constructors_agree, C39_boundary_refuted, C39_negative_variance, C40_check_exact, C42_fractions_sum, C42_fractions_nonneg, C42_negative_refuted, C49_half_kicks, C57_distinct_keys, C57_realizations_distinct, C57_population_keys_refuted, C72_posteriors, C72_uncovered_refuted, C73_moments, C73_single_sample_refuted, C75_within_cuts, C75_edge, C75_terminates_refuted, C53_monotone, C53_ifar, C53_far, C53_rate_cut, C53_snr, C51_partition, C51_nonempty, C51_small, C51_multiple_refuted, C51_fraction, C79_epoch_loss, C79_epoch_loss_refuted, C95_entries_interpreted, C95_rejected_iff, C97_file_contents, C97_refused_iff, C98_marginals_agree, C98_same_total, C102_coordinates_partial, C102_chi_p_refuted, C103_read_back_partial, C103_chi_p_refuted, C104_declared_suffice, C104_values_reach_partial, C104_chi_p_refuted, C107_given_bounds_partial, C107_default_refuted, C108_eccentricity_partial, C108_discarded_refuted, C117_accepted_well_formed, C117_diagonal_accepted, C117_template_accepted, C117_mass_matrix_refuted, C117_empty_run_refuted, C119_curves, C119_nested, C119_coverage, C119_figures, C119_mixed_headers_refuted, C120_suggestions_accepted, C127_ess_per_draw, C128_frames, C128_reduced_mass, C128_mass_from_ratio, C128_spin_difference, C128_guards, C129_contents, C129_acceptances, C129_clean, C129_stale_refuted, C130_redraw_refuted, C132_template, C134_growth, C139_accepted, C139_order, C139_ignored, C139_ignored_refuted, C149_mass_matrix, C149_precedence, C149_float, C149_suggestions, C149_number_refuted, C149_unknown, C150_shape, C150_lipschitz, C150_output, C150_reloaded, C150_activation_refuted, C151_mse, C151_zero, C151_detections
* `ClassicalDedekindReals.sig_forall_dec`, `ClassicalDedekindReals.sig_not_dec`, `FunctionalExtensionality.functional_extensionality_dep` -- 34 theorems: C10_event_variance_nonneg, C10_equal_weights_zero, C59_variance_is_second_moment_minus_square_partial, C59_cdf_is_primitive_of_density, C30_precession_spin_range, C30_precession_spin_value, C61_redshift_recovered, C61_distance_recovered, C61_distance_increasing, C61_beyond_the_grid, C65_ordered_vectors, C65_not_injective_refuted, C56_rows, C56_selection, C56_components_refuted, C81_range, C81_ends, C81_early_refuted, C81_few_epochs_refuted, C110_expansion_rate, C117_positive_definite, C118_reciprocal_variances, C118_accepted, C118_one_parameter_refuted, C122_draws, C123_catalogue, C123_fresh, C123_one_size_refuted, C123_second_run_refuted, C128_difference_ratio, C128_difference_ratio_back, C130_choice_refuted, C148_round_trip, C150_logits_refuted
* `ClassicalDedekindReals.sig_forall_dec`, `ClassicalDedekindReals.sig_not_dec`, `Classical_Prop.classic`, `FunctionalExtensionality.functional_extensionality_dep` -- 277 theorems: C01_likelihood_of_stored_catalogue, C01_bucketing_invariance, C01_end_to_end, C06_flowmc_value_finite_or_neginf, C06_flowmc_gating, C06_flowmc_gate_transparent, C06_analytical_finite_or_neginf, C07_backends_agree, C07_numpyro_factor_always_finite, C07_dependent_priors_agree, C10_variance_is_sum_over_events, C10_variance_nonneg, C03_stream_equals_pooled, C03_stream_equals_one_shot, C03_event_loop_pools_its_batches, C03_analytical_likelihood_value, C04_estimate_and_error, C04_error_nonneg, C05_stops_when_accurate_refuted, C05_continues_until_accurate_refuted, C05_loop_condition_partial, C08_expected_count, C08_order_and_batch_independent, C09_variance_value, C09_variance_nonneg, C13_mixture_density, C13_neginf_iff_no_component_contributes, C13_component_order_irrelevant, C13_no_masking_without_explicit_support, C13_default_support_refuted, C59_rates_refuted, C26_masses_recovered, C26_chirp_mass_and_eta_reproduced, C26_textbook_values, C26_eta_from_mass_ratio, C27_inverse_of_forward, C27_forward_of_inverse, C27_mass_ratio_transforms_inverse, C28_reported_jacobian_is_true, C28_equal_mass_boundary, C29_equal_masses_refuted, C29_zero_mass_ratio_refuted, C29_codomain_partial, C31_polar_round_trip, C31_spherical_round_trip, C31_lengths_and_ranges, C62_exact_distance_partial, C62_interpolated_distance_refuted, C63_volume_element, C63_volume_table_nondecreasing, C64_reordered_slices_refuted, C65_mass_sandwich, C65_mass_ratio_sandwich_refuted, C65_lower_half_never_reached_refuted, C32_powerlaw_normalised, C32_powerlaw_shape, C33_cdf_below, C33_cdf_above, C33_cdf_derivative_is_density, C33_cdf_after_icdf, C33_icdf_after_cdf, C33_cdf_increasing, C33_icdf_increasing, C33_sample_follows_cdf, C33_cdf_below_zero_refuted, C34_log_norm_rule, C34_cdf_rule_partial, C34_cdf_rule_at_minus_one_partial, C34_cdf_high_rule_refuted, C34_cdf_index_rule_refuted, C34_cdf_rule_outside_refuted, C34_icdf_rule_partial, C34_icdf_index_rule_refuted, C35_primary_ratio_normalised, C35_validated_normalised, C35_shape, C36_broken_power_law_normalised, C36_broken_power_law_continuous, C36_shape, C37_taper_window, C37_taper_values, C38_truncnorm_normalised, C38_branches_agree, C38_shape, C38_scale_not_positive, C66_wysocki_normalised, C66_wysocki_uniform_secondary, C66_samples_in_support, C67_smoothed_shape, C67_smoothed_primary_normalised, C67_smoothed_ratio_normalised, C67_smoothed_ratio_shape, C67_wide_smoothing_refuted, C67_two_peak_normalised, C67_two_peak_factors, C67_two_peak_shape, C67_smoothed_between, C67_two_peak_between, C67_between_bounds, C67_first_cell_refuted, C39_true_moments, C41_element_normalised, C41_sampling_inverts, C41_draws_on_simplex, C41_joint_flat, C41_order_unchecked_refuted, C41_vertex_refuted, C68_skew_normalised, C68_two_widths, C68_zero_outside, C69_two_truncated_normals, C69_nd_mixture, C69_spin_orientation, C69_minimum_tilt, C69_spin_orientation_value, C69_two_truncated_normals_value, C69_nd_mixture_value, C69_minimum_tilt_value, C70_mass_marginal, C70_component_spins, C71_evolution, C71_density, C71_log_norm, C71_unnormalised_refuted, C71_samples, C71_log_norm_error, C71_resolved, C71_sampling_error, C49_reversible, C50_step, C50_cache, C50_acceptance, C50_no_zero_density, C74_back_to_masses, C74_undefined, C74_banana, C74_positive_refuted, C54_density, C54_aligned_spin, C54_detected_masses_refuted, C54_detected_masses_with_spin_refuted, C54_chirp_mass_refuted, C76_spin, C76_jacobian, C76_draw_density, C76_polar_angle, C76_weights, C76_zero_spin_refuted, C55_mass_prior, C55_other_coordinates_refuted, C55_needs_redshift, C77_rows, C77_number, C77_missing_column, C77_aliases, C78_euclidean, C78_comoving, C78_needs_redshift, C78_spin, C78_total, C52_monotone, C52_zero_refuted, C52_finite, C82_gradient, C82_minimum, C87_vt_mean, C87_pdet_mean_partial, C87_madau_refuted, C88_vt_variance, C88_pdet_variance, C89_by_name, C89_order_irrelevant, C93_density, C93_outside, C94_total_rate, C94_total_rate_refuted, C100_exact_density, C100_density_unique, C100_infinite_value_refuted, C100_nan_value_refuted, C100_dilogarithm_exists, C105_covered, C105_settings, C106_ranges_partial, C106_effective_spin_refuted, C110_comoving_distance, C110_luminosity_distance, C110_distance_derivative, C114_required, C114_powerlaw_peak, C114_two_peak_full, C114_full_marginal, C114_peak_marginal, C114_bound_orbits_refuted, C114_multi_spin_required, C114_multi_spin, C114_multi_spin_marginal, C114_multi_spin_bound_orbits_refuted, C115_density, C115_total_rate, C115_nothing_outside, C115_columns, C115_arguments, C115_wrong_arguments, C116_reversible, C116_invariant, C116_draws, C117_target_invariant, C118_standardised, C121_density_unique, C121_exact_density, C121_dilogarithm_exists, C121_zero_outside, C121_not_negative, C121_symmetric, C122_density, C122_marginals, C122_moments, C122_full_correlation, C122_ranges_refuted, C124_vt_log, C124_pdet_plain, C124_vt_zero_refuted, C124_vt_plain_refuted, C124_pdet_log_refuted, C124_pdet_log_count_refuted, C124_pdet_bce_refuted, C130_likelihood, C134_sum, C134_order, C134_minus_infinity, C134_posterior, C134_single, C134_single_million, C135_error, C135_cancels, C135_no_number, C135_stable_refuted, C137_rate, C137_none, C137_variance, C137_sign, C137_single, C137_single_variance, C138_per_redshift, C138_table, C138_comoving, C138_luminosity, C138_single, C139_events, C139_alone, C139_thinned_refuted, C142_error, C142_error_minus_one, C142_amplification, C142_cancels, C142_refuted, C144_error, C144_outside, C144_equal_ends, C144_refuted, C144_wide_refuted, C144_tail_error, C145_constant, C145_special, C145_below_half, C145_around_one, C145_error, C145_refuted, C148_comoving, C148_luminosity, C148_planck_2015, C148_planck_2018, C151_entries, C151_bce, C151_log, C151_mean_refuted
* `ClassicalDedekindReals.sig_forall_dec`, `ClassicalDedekindReals.sig_not_dec`, `ClassicalEpsilon.constructive_indefinite_description`, `Classical_Prop.classic`, `FunctionalExtensionality.functional_extensionality_dep` -- 6 theorems: C111_importance_weights, C111_samples, C111_fallback, C112_exact_for_gaussians, C113_weights, C113_posterior

