{
 "claims": [
  {
   "property": "C01",
   "status": "proved",
   "theorems": [
    "C01_likelihood_of_stored_catalogue",
    "C01_bucketing_invariance",
    "C01_end_to_end"
   ],
   "note": "All bucketings, paddings and special values; end-to-end from the loaded events."
  },
  {
   "property": "C02",
   "status": "proved",
   "theorems": [
    "C02_pad_and_stack_lossless",
    "C02_automatic_mode_total"
   ],
   "note": "jenkspy is an oracle assumed to return non-decreasing breaks; totality in automatic mode needs no assumption."
  },
  {
   "property": "C06",
   "status": "proved",
   "theorems": [
    "C06_flowmc_value_finite_or_neginf",
    "C06_flowmc_gating",
    "C06_flowmc_gate_transparent",
    "C06_analytical_finite_or_neginf"
   ],
   "note": "flowMC back-end; the analytical likelihood ends in the same nan_to_num, see C06 theorems."
  },
  {
   "property": "C07",
   "status": "proved",
   "theorems": [
    "C07_backends_agree",
    "C07_numpyro_factor_always_finite",
    "C07_sites_are_the_prior",
    "C07_dependent_priors_agree"
   ],
   "note": "Wherever flowMC is finite; at -inf the NumPyro factor is a finite number (recorded as finding). For the priors the front end builds, dependent ones included, the sample sites are modelled too: each parameter once, after what it depends on, log densities adding up to the prior."
  },
  {
   "property": "C10",
   "status": "proved",
   "theorems": [
    "C10_variance_is_sum_over_events",
    "C10_event_variance_nonneg",
    "C10_variance_nonneg",
    "C10_equal_weights_zero"
   ],
   "note": ""
  },
  {
   "property": "C11",
   "status": "proved",
   "theorems": [
    "C11_variance_cut_exact",
    "C11_no_samples_is_error"
   ],
   "note": ""
  },
  {
   "property": "C12",
   "status": "proved",
   "theorems": [
    "C12_batch_and_remainder_lossless"
   ],
   "note": ""
  },
  {
   "property": "C03",
   "status": "proved",
   "theorems": [
    "C03_stream_equals_pooled",
    "C03_stream_equals_one_shot",
    "C03_event_loop_pools_its_batches",
    "C03_analytical_likelihood_value"
   ],
   "note": "Batches of at least two samples with finite or -inf log weights; also lifted to the event loop and the whole analytical likelihood."
  },
  {
   "property": "C04",
   "status": "proved",
   "theorems": [
    "C04_estimate_and_error",
    "C04_error_nonneg"
   ],
   "note": ""
  },
  {
   "property": "C05",
   "status": "partial",
   "theorems": [
    "C05_stops_when_accurate_refuted",
    "C05_continues_until_accurate_refuted",
    "C05_loop_condition_partial"
   ],
   "note": "False of the code: the loop condition is inverted (it goes on while the error is small). Refuted in both directions; the theorem ending in _partial states what the loop does."
  },
  {
   "property": "C08",
   "status": "proved",
   "theorems": [
    "C08_expected_count",
    "C08_order_and_batch_independent"
   ],
   "note": ""
  },
  {
   "property": "C09",
   "status": "proved",
   "theorems": [
    "C09_variance_value",
    "C09_variance_nonneg"
   ],
   "note": ""
  },
  {
   "property": "C13",
   "status": "proved",
   "theorems": [
    "C13_mixture_density",
    "C13_neginf_iff_no_component_contributes",
    "C13_component_order_irrelevant",
    "C13_no_masking_without_explicit_support",
    "C13_default_support_refuted"
   ],
   "note": "For mixtures built with an explicit support, as stated. Without one the code masks nothing; see C13_default_support_refuted."
  },
  {
   "property": "C14",
   "status": "proved",
   "theorems": [
    "C14_joint_density_is_sum_over_pieces",
    "C14_joint_support_is_conjunction",
    "C14_slices_partition_the_event",
    "C14_every_point_is_cut",
    "C14_sample_is_cut_like_the_density"
   ],
   "note": ""
  },
  {
   "property": "C15",
   "status": "partial",
   "theorems": [
    "C15_flattening_preserves_size_and_density",
    "C15_flattening_preserves_default_supports_partial",
    "C15_explicit_support_is_dropped_refuted",
    "C15_deep_flattening_leaves_no_joint"
   ],
   "note": "Size and density proved for all nestings. The support claim is false when a nested joint has an explicit support (refuted with a witness); proved when none has."
  },
  {
   "property": "C16",
   "status": "proved",
   "theorems": [
    "C16_lazy_density_chain_rule",
    "C16_lazy_support_of_conditionals",
    "C16_sampling_reads_only_drawn_values",
    "C16_density_and_sampler_condition_alike",
    "C16_vector_marginals_refuted"
   ],
   "note": "Density and support for marginals of any size; the sampler conditions on whole marginals while the density conditions on event coordinates, which agree for scalar marginals and are refuted to agree otherwise."
  },
  {
   "property": "C43",
   "status": "proved",
   "theorems": [
    "C43_vector_constraints_are_pairwise",
    "C43_feasible_values_accepted"
   ],
   "note": ""
  },
  {
   "property": "C44",
   "status": "proved",
   "theorems": [
    "C44_regions",
    "C44_ratio_form_same_region",
    "C44_nan_rejected",
    "C44_feasible_values_accepted"
   ],
   "note": ""
  },
  {
   "property": "C45",
   "status": "partial",
   "theorems": [
    "C45_equal_constraints_agree_partial",
    "C45_slices_ignored_refuted",
    "C45_extra_parts_ignored_refuted",
    "C45_extra_alternatives_ignored_refuted"
   ],
   "note": "False of the code: eq stops at the shorter list of parts and ignores slices (three refutations). Proved for constraints of the same layout."
  },
  {
   "property": "C59",
   "status": "partial",
   "theorems": [
    "C59_variance_is_second_moment_minus_square_partial",
    "C59_rates_refuted",
    "C59_cdf_is_primitive_of_density"
   ],
   "note": "The cdf part is proved. Mean and variance are those of the sampled distribution only if the scales sum to one (proved then, refuted in general)."
  },
  {
   "property": "C60",
   "status": "proved",
   "theorems": [
    "C60_feasible_like_accepted"
   ],
   "note": "Single events (no batch axes)."
  },
  {
   "property": "C17",
   "status": "proved",
   "theorems": [
    "C17_topological_order",
    "C17_lazy_prior_well_formed",
    "C17_prior_density_and_sampling"
   ],
   "note": "For every acyclic graph the model of _topological_sort returns each node once with every edge going forward, for any iteration order; the dependencies and order handed to LazyJointDistribution are well formed and give the chain-rule density and a sampler that never reads an undrawn value."
  },
  {
   "property": "C18",
   "status": "proved",
   "theorems": [
    "C18_cycle_check_exact",
    "C18_cyclic_configuration_rejected"
   ],
   "note": "check_cycles returns true iff the graph has a directed cycle; a configuration with a dependency cycle is rejected."
  },
  {
   "property": "C19",
   "status": "proved",
   "theorems": [
    "C19_names_and_coordinates_aligned"
   ],
   "note": "All clauses of the statement, for every configuration on which classify_model_parameters succeeds (unique keys, as in a dictionary). A constant also passed through Guru.constants is overridden by it, so those names are excluded from the constant clause."
  },
  {
   "property": "C20",
   "status": "partial",
   "theorems": [
    "C20_alias_chain_refuted",
    "C20_dangling_alias_refuted",
    "C20_direct_entries_kept_partial"
   ],
   "note": "Refuted by two witnesses: an alias of an alias and an alias of an unknown name are dropped without an error. Proved for direct entries and aliases of direct entries."
  },
  {
   "property": "C21",
   "status": "partial",
   "theorems": [
    "C21_zero_value_refuted",
    "C21_alias_overridden_refuted",
    "C21_exact_entry_used_partial",
    "C21_first_pattern_otherwise_partial",
    "C21_alias_outcomes_partial"
   ],
   "note": "Refuted: an exact entry with a falsy value (0) is shadowed by a pattern, and an alias requested before its target is overridden by a pattern. Proved for truthy non-alias entries; the outcomes for the other entries are characterised."
  },
  {
   "property": "C22",
   "status": "partial",
   "theorems": [
    "C22_missing_prior_accepted_refuted",
    "C22_missing_prior_becomes_none_partial",
    "C22_every_parameter_matched_partial",
    "C22_only_bad_distributions_raise_partial"
   ],
   "note": "Refuted: match_all gives every requested name an entry, so the check never fires and a parameter without a prior becomes the constant None. The actual behaviour is proved."
  },
  {
   "property": "C23",
   "status": "partial",
   "theorems": [
    "C23_component_parameter_precedence",
    "C23_other_components_irrelevant",
    "C23_null_hides_shared_value_refuted"
   ],
   "note": "Precedence, irrelevance of other components and the error are proved for all dictionaries; the reading that a null under name_i falls back to name is refuted by a witness."
  },
  {
   "property": "C24",
   "status": "partial",
   "theorems": [
    "C24_wiping_rates_distinct_columns_partial",
    "C24_shared_column_refuted"
   ],
   "note": "Proved when names have distinct columns in range; refuted when two names share a column (aliases), where the column of another parameter is deleted."
  },
  {
   "property": "C26",
   "status": "proved",
   "theorems": [
    "C26_masses_recovered",
    "C26_chirp_mass_and_eta_reproduced",
    "C26_textbook_values",
    "C26_eta_from_mass_ratio"
   ],
   "note": "Both directions, for all masses 0 < m2 <= m1 and all Mc > 0, 0 < eta <= 1/4, over the reals."
  },
  {
   "property": "C27",
   "status": "proved",
   "theorems": [
    "C27_inverse_of_forward",
    "C27_forward_of_inverse",
    "C27_image",
    "C27_mass_ratio_transforms_inverse"
   ],
   "note": "Both composites are the identity for every transform, and the coordinates of the image are bounded; exact real arithmetic. RedshiftToLuminosityDistance is C61."
  },
  {
   "property": "C28",
   "status": "proved",
   "theorems": [
    "C28_reported_jacobian_is_true",
    "C28_equal_mass_boundary"
   ],
   "note": "The reported log|det J| is the log of the determinant of the partial derivatives, for every mass transform, on the interior of the domain; -inf on the equal-mass boundary of (Mc, eta)."
  },
  {
   "property": "C29",
   "status": "partial",
   "theorems": [
    "C29_equal_masses_refuted",
    "C29_zero_mass_ratio_refuted",
    "C29_codomain_partial"
   ],
   "note": "Refuted for two transforms: (m1,m2)->(m1,q) rejects the image of equal masses, and (m1,q)->(m1,m2) accepts q=0 whose image is not positive. Proved for the other seven transforms and for these two off those boundaries."
  },
  {
   "property": "C30",
   "status": "proved",
   "theorems": [
    "C30_effective_spin_between_components",
    "C30_spins_recovered",
    "C30_effective_spin_from_tilts",
    "C30_precession_spin_range",
    "C30_precession_spin_value"
   ],
   "note": ""
  },
  {
   "property": "C31",
   "status": "proved",
   "theorems": [
    "C31_polar_round_trip",
    "C31_spherical_round_trip",
    "C31_lengths_and_ranges"
   ],
   "note": ""
  },
  {
   "property": "C61",
   "status": "proved",
   "theorems": [
    "C61_redshift_recovered",
    "C61_distance_recovered",
    "C61_distance_increasing",
    "C61_beyond_the_grid"
   ],
   "note": "All cosmologies with positive E(z)^2 for z >= 0, all grids, real arithmetic; flat cosmologies with non-negative densities are an instance."
  },
  {
   "property": "C62",
   "status": "partial",
   "theorems": [
    "C62_exact_distance_partial",
    "C62_interpolated_distance_refuted"
   ],
   "note": "Refuted: z_to_DL interpolates linearly, so its slope differs from the reported derivative (witness inside the first cell). Proved that the reported value is the log-derivative of (1+z) Dc(z) for an exact comoving distance."
  },
  {
   "property": "C63",
   "status": "proved",
   "theorems": [
    "C63_volume_element",
    "C63_volume_table_nondecreasing"
   ],
   "note": ""
  },
  {
   "property": "C64",
   "status": "partial",
   "theorems": [
    "C64_blockwise",
    "C64_inverse_and_jacobian",
    "C64_codomain",
    "C64_reordered_slices_refuted"
   ],
   "note": "Proved for slices that cut the event into consecutive pieces in order, for any number of blocks; refuted for disjoint slices listed in another order, where the output blocks are permuted and the inverse does not undo the map."
  },
  {
   "property": "C65",
   "status": "partial",
   "theorems": [
    "C65_ordered_vectors",
    "C65_mass_sandwich",
    "C65_mass_ratio_sandwich_refuted",
    "C65_lower_half_never_reached_refuted",
    "C65_not_injective_refuted"
   ],
   "note": "Into the constraint: proved for ordered vectors and the mass sandwich (first coordinate non-zero), refuted for the (m1, q) sandwich. Refuted: onto (the lower half of the mass range is never reached) and one-to-one (x and -x have the same image)."
  },
  {
   "property": "C32",
   "status": "proved",
   "theorems": [
    "C32_powerlaw_normalised",
    "C32_powerlaw_shape"
   ],
   "note": "All indices including -1, all 0 < low < high; exact Riemann integral of the modelled density, plus the shape (ratio of densities)."
  },
  {
   "property": "C33",
   "status": "partial",
   "theorems": [
    "C33_cdf_below",
    "C33_cdf_above",
    "C33_cdf_derivative_is_density",
    "C33_cdf_after_icdf",
    "C33_icdf_after_cdf",
    "C33_cdf_increasing",
    "C33_icdf_increasing",
    "C33_sample_follows_cdf",
    "C33_cdf_below_zero_refuted"
   ],
   "note": "Proved for x >= 0: zero below low, one above high, derivative is the density, mutual inverse, strict monotonicity, inverse-transform sampling. Refuted: 'zero below low' for negative x."
  },
  {
   "property": "C34",
   "status": "partial",
   "theorems": [
    "C34_log_norm_rule",
    "C34_cdf_rule_partial",
    "C34_cdf_rule_at_minus_one_partial",
    "C34_cdf_high_rule_refuted",
    "C34_cdf_index_rule_refuted",
    "C34_cdf_rule_outside_refuted",
    "C34_icdf_rule_partial",
    "C34_icdf_index_rule_refuted"
   ],
   "note": "Proved: all rules of the normalisation constant (at every index, the averaged rule at -1 is exact), all cdf rules inside the range and all icdf rules for alpha <> -1, and those for x/q, low (and high of icdf) at -1. Refuted: the cdf rule for high at -1 has the wrong sign; the averaged index rules of cdf and icdf at -1 are inexact; the cdf rule reports a slope outside the range."
  },
  {
   "property": "C35",
   "status": "proved",
   "theorems": [
    "C35_primary_ratio_normalised",
    "C35_validated_normalised",
    "C35_shape"
   ],
   "note": "Iterated Riemann integral of the modelled log density equals one, with and without argument validation; zero outside the region when validated; shape in both variables."
  },
  {
   "property": "C36",
   "status": "proved",
   "theorems": [
    "C36_broken_power_law_normalised",
    "C36_broken_power_law_continuous",
    "C36_shape"
   ],
   "note": "Integral one, continuity on the whole positive axis including the break, and the power on either side."
  },
  {
   "property": "C37",
   "status": "proved",
   "theorems": [
    "C37_taper_window",
    "C37_taper_values"
   ],
   "note": "All six facts for all reals, plus continuity and that the log window is never NaN."
  },
  {
   "property": "C38",
   "status": "proved",
   "theorems": [
    "C38_truncnorm_normalised",
    "C38_branches_agree",
    "C38_shape",
    "C38_scale_not_positive"
   ],
   "note": "Normalisation via the Gaussian integral (proved in Proofs_Gauss); the three branches equal; zero outside; normal shape."
  },
  {
   "property": "C66",
   "status": "proved",
   "theorems": [
    "C66_wysocki_normalised",
    "C66_wysocki_uniform_secondary",
    "C66_samples_in_support"
   ],
   "note": "Exact iterated integral one, zero outside, uniform in the secondary; samples inside the support for every pair of uniforms."
  },
  {
   "property": "C67",
   "status": "partial",
   "theorems": [
    "C67_smoothed_shape",
    "C67_smoothed_primary_normalised",
    "C67_smoothed_ratio_normalised",
    "C67_smoothed_ratio_shape",
    "C67_wide_smoothing_refuted",
    "C67_two_peak_normalised",
    "C67_two_peak_factors",
    "C67_two_peak_shape",
    "C67_smoothed_between",
    "C67_two_peak_between",
    "C67_between_bounds",
    "C67_first_cell_refuted"
   ],
   "note": "Proved for smoothing narrower than the mass range: exact quadrature identities for both models, also with different minimum masses, where each factor has its own grid; between nodes above the first cell the bound by the change of the normaliser, which is one where the taper is one. Refuted: in the first cell the interpolated normaliser is too large by any factor (C67_first_cell_refuted), and a smoothing width larger than the mass range gives NaN (C67_wide_smoothing_refuted)."
  },
  {
   "property": "C39",
   "status": "partial",
   "theorems": [
    "C39_concentrations_and_back",
    "C39_moments_and_back",
    "C39_positive_exactly",
    "C39_true_moments",
    "C39_constructors_agree",
    "C39_boundary_refuted",
    "C39_negative_variance"
   ],
   "note": "proved for every mean inside the range and every variance other than 0 and the maximal (mean-low)(high-mean), any location and positive scale; positivity equivalence for positive variances; at the maximal variance the way back is NaN (C39_boundary_refuted), so the claim for all variances is false; also shown to be the true moments of the Beta density for concentrations above one"
  },
  {
   "property": "C40",
   "status": "proved",
   "theorems": [
    "C40_check_exact"
   ],
   "note": "for every mean, positive variance and minima"
  },
  {
   "property": "C41",
   "status": "partial",
   "theorems": [
    "C41_element_normalised",
    "C41_sampling_inverts",
    "C41_draws_on_simplex",
    "C41_joint_flat",
    "C41_errors",
    "C41_order_unchecked_refuted",
    "C41_vertex_refuted"
   ],
   "note": "proved for all dimensions, orders and partial sums below one; at a point where the earlier elements already sum to one the joint density is NaN (C41_vertex_refuted), and an order beyond the last element is accepted with a NaN density (C41_order_unchecked_refuted)"
  },
  {
   "property": "C42",
   "status": "proved",
   "theorems": [
    "C42_fractions_sum",
    "C42_fractions_nonneg",
    "C42_negative_refuted"
   ],
   "note": "C42_negative_refuted shows that fractions each in [0,1] are not enough"
  },
  {
   "property": "C68",
   "status": "proved",
   "theorems": [
    "C68_skew_normalised",
    "C68_two_widths",
    "C68_zero_outside"
   ],
   "note": ""
  },
  {
   "property": "C69",
   "status": "proved",
   "theorems": [
    "C69_two_truncated_normals",
    "C69_nd_mixture",
    "C69_spin_orientation",
    "C69_minimum_tilt",
    "C69_spin_orientation_value",
    "C69_two_truncated_normals_value",
    "C69_nd_mixture_value",
    "C69_minimum_tilt_value"
   ],
   "note": "the integral over the box is iterated, one Riemann integral per coordinate"
  },
  {
   "property": "C70",
   "status": "proved",
   "theorems": [
    "C70_mass_marginal",
    "C70_component_spins"
   ],
   "note": "the integral is iterated, one Riemann integral per coordinate; C70_component_spins gives the density at every point"
  },
  {
   "property": "C71",
   "status": "partial",
   "theorems": [
    "C71_evolution",
    "C71_density",
    "C71_log_norm",
    "C71_unnormalised_refuted",
    "C71_samples",
    "C71_log_norm_error",
    "C71_resolved",
    "C71_sampling_error"
   ],
   "note": "shape, log_norm and samples proved; log_prob itself is not normalised although documented so (C71_unnormalised_refuted); samples invert the tabulated distribution function; normaliser and samples differ from the exact integral and its quantiles by at most a multiple of the change of the density within one grid step (C71_log_norm_error, C71_sampling_error), which is small over short steps (C71_resolved)"
  },
  {
   "property": "C46",
   "status": "proved",
   "theorems": [
    "C46_chains_saved",
    "C46_saved_exactly",
    "C46_paths_distinct",
    "C46_paths",
    "C46_chain_method_required_refuted"
   ],
   "note": "the NumPyro sampler is an oracle; files are tables with a header; chain_method has no default (C46_chain_method_required_refuted)"
  },
  {
   "property": "C47",
   "status": "proved",
   "theorems": [
    "C47_sequence",
    "C47_custom_order_refuted",
    "C47_unknown_rejected"
   ],
   "note": "for the order built by the bundle; an order passed directly to the sampler may be cut short (C47_custom_order_refuted)"
  },
  {
   "property": "C48",
   "status": "proved",
   "theorems": [
    "C48_saved_samples",
    "C48_complete"
   ],
   "note": "stepper outputs are oracles with n_local_steps // local_thinning rows each"
  },
  {
   "property": "C49",
   "status": "proved",
   "theorems": [
    "C49_reversible",
    "C49_half_kicks"
   ],
   "note": "for every quadratic kinetic energy and every potential; exact arithmetic"
  },
  {
   "property": "C50",
   "status": "proved",
   "theorems": [
    "C50_step",
    "C50_cache",
    "C50_acceptance",
    "C50_no_zero_density"
   ],
   "note": ""
  },
  {
   "property": "C56",
   "status": "proved",
   "theorems": [
    "C56_rows",
    "C56_selection",
    "C56_components_refuted"
   ],
   "note": "sampler, selection and weighted choice are oracles; the swap moves only the masses, not the components' other parameters (C56_components_refuted)"
  },
  {
   "property": "C57",
   "status": "proved",
   "theorems": [
    "C57_distinct_keys",
    "C57_realizations_distinct",
    "C57_population_keys_refuted"
   ],
   "note": "keys split partitionably; the keys do coincide with keys used to draw populations and the Poisson size (C57_population_keys_refuted)"
  },
  {
   "property": "C58",
   "status": "proved",
   "theorems": [
    "C58_extension",
    "C58_rejected"
   ],
   "note": "a name with another extension is rejected"
  },
  {
   "property": "C72",
   "status": "partial",
   "theorems": [
    "C72_posteriors",
    "C72_uncovered_refuted"
   ],
   "note": "proved for the columns that error functions cover; an uncovered column keeps uninitialised memory (C72_uncovered_refuted)"
  },
  {
   "property": "C73",
   "status": "partial",
   "theorems": [
    "C73_moments",
    "C73_single_sample_refuted"
   ],
   "note": "proved for two or more usable samples; one usable sample makes the run fail (C73_single_sample_refuted); with one parameter the covariance is a scalar instead of a matrix"
  },
  {
   "property": "C74",
   "status": "proved",
   "theorems": [
    "C74_back_to_masses",
    "C74_undefined",
    "C74_banana",
    "C74_positive_refuted"
   ],
   "note": "exact arithmetic; a negative perturbed chirp mass gives negative, misordered, finite masses (C74_positive_refuted)"
  },
  {
   "property": "C75",
   "status": "proved",
   "theorems": [
    "C75_within_cuts",
    "C75_fresh_keys",
    "C75_edge",
    "C75_terminates_refuted"
   ],
   "note": "partial correctness; cuts that exclude the support make the call loop for ever (C75_terminates_refuted); sampler is an oracle"
  },
  {
   "property": "C53",
   "status": "proved",
   "theorems": [
    "C53_monotone",
    "C53_ifar",
    "C53_far",
    "C53_rate_cut",
    "C53_snr",
    "C53_upper_case_refuted"
   ],
   "note": "a false-alarm-rate column with an upper-case name is copied under a key that is never read, so nothing is found (C53_upper_case_refuted)"
  },
  {
   "property": "C54",
   "status": "partial",
   "theorems": [
    "C54_coordinates",
    "C54_density",
    "C54_aligned_spin",
    "C54_detected_masses_refuted",
    "C54_detected_masses_with_spin_refuted",
    "C54_chirp_mass_refuted"
   ],
   "note": "proved for six mass parametrisations with effective, precessing or aligned spins and the luminosity distance; both detector-frame component masses fail or get a wrong factor, and the chirp mass without the mass ratio fails (C54_..._refuted)"
  },
  {
   "property": "C76",
   "status": "partial",
   "theorems": [
    "C76_spin",
    "C76_jacobian",
    "C76_draw_density",
    "C76_polar_angle",
    "C76_weights",
    "C76_aligned_file_refuted",
    "C76_masked",
    "C76_zero_spin_refuted"
   ],
   "note": "proved for files with all Cartesian components; a file without x and y components fails unless every injection is found, and a zero spin has a NaN tilt (C76_..._refuted)"
  },
  {
   "property": "C55",
   "status": "partial",
   "theorems": [
    "C55_mass_prior",
    "C55_other_coordinates_refuted",
    "C55_needs_redshift"
   ],
   "note": "proved for source-frame coordinates with every prior and detector-frame coordinates with detector-frame priors; for the other eight combinations the difference is not a constant (C55_other_coordinates_refuted)"
  },
  {
   "property": "C77",
   "status": "proved",
   "theorems": [
    "C77_rows",
    "C77_number",
    "C77_missing_column",
    "C77_aliases"
   ],
   "note": "rows treated one at a time; the random row draw is an oracle on positions"
  },
  {
   "property": "C78",
   "status": "proved",
   "theorems": [
    "C78_euclidean",
    "C78_comoving",
    "C78_needs_redshift",
    "C78_spin",
    "C78_total"
   ],
   "note": "cosmology functions and the isotropic effective-spin densities are parameters of the theorem"
  },
  {
   "property": "C51",
   "status": "proved",
   "theorems": [
    "C51_partition",
    "C51_nonempty",
    "C51_small",
    "C51_multiple_refuted",
    "C51_fraction"
   ],
   "note": "the permutation is an oracle; with at most one batch of data the test part is empty (C51_small), and the training part is not always a whole number of batches (C51_multiple_refuted)"
  },
  {
   "property": "C52",
   "status": "partial",
   "theorems": [
    "C52_monotone",
    "C52_zero_refuted",
    "C52_finite"
   ],
   "note": "proved for positive targets; a zero target becomes -tiny, above almost every other (C52_zero_refuted)"
  },
  {
   "property": "C79",
   "status": "partial",
   "theorems": [
    "C79_cover",
    "C79_epoch_loss",
    "C79_epoch_loss_refuted"
   ],
   "note": "coverage proved; the reported loss is the mean when the batch size divides the rows, otherwise it is too large (C79_epoch_loss_refuted)"
  },
  {
   "property": "C80",
   "status": "partial",
   "theorems": [
    "C80_round_trip",
    "C80_attributes",
    "C80_names_refuted",
    "C80_extension"
   ],
   "note": "proved for networks saved with names; one saved without names, as the signature allows, cannot be loaded (C80_names_refuted)"
  },
  {
   "property": "C81",
   "status": "partial",
   "theorems": [
    "C81_range",
    "C81_ends",
    "C81_early_refuted",
    "C81_few_epochs_refuted",
    "C81_steps",
    "C81_steps_refuted"
   ],
   "note": "range, peak and floor proved; the floor is reached one warm-up before the end, and few epochs make the schedule fail (C81_early_refuted, C81_few_epochs_refuted); the steps counted are the updates made exactly when the batch size divides the rows or exceeds them (C81_steps, C81_steps_refuted); optax schedule modelled from its documentation"
  },
  {
   "property": "C82",
   "status": "proved",
   "theorems": [
    "C82_gradient",
    "C82_minimum"
   ],
   "note": "optax.sigmoid_binary_cross_entropy modelled from its definition; one entry of the mean"
  },
  {
   "property": "C25",
   "status": "partial",
   "theorems": [
    "C25_coordinates",
    "C25_both_alternatives_refuted"
   ],
   "note": "proved for all flags except those enabling both models of the spin magnitudes or both of the effective spin, where the events have 2 or 1 coordinates more than names (C25_both_alternatives_refuted)"
  },
  {
   "property": "C83",
   "status": "partial",
   "theorems": [
    "C83_declared_suffice",
    "C83_no_component_refuted"
   ],
   "note": "proved for at least one component; with none the mixture cannot be built (C83_no_component_refuted)"
  },
  {
   "property": "C84",
   "status": "proved",
   "theorems": [
    "C84_names_distinct",
    "C84_one_name_per_component"
   ],
   "note": ""
  },
  {
   "property": "C85",
   "status": "partial",
   "theorems": [
    "C85_values_reach_partial",
    "C85_ignored_refuted"
   ],
   "note": "proved except for location and scale of phi_12, ra, dec, cos_iota and psi, which are declared but have no effect (C85_ignored_refuted)"
  },
  {
   "property": "C86",
   "status": "partial",
   "theorems": [
    "C86_check_raises_refuted",
    "C86_check_when_named_partial"
   ],
   "note": "refuted: the check reads names that are never declared, so it raises on every proposal (C86_check_raises_refuted); under the names it reads it decides as intended"
  },
  {
   "property": "C87",
   "status": "partial",
   "theorems": [
    "C87_vt_mean",
    "C87_pdet_mean_partial",
    "C87_madau_refuted"
   ],
   "note": "proved for the VT network and for components whose redshift model is a power law inside a joint distribution; the normaliser of a Madau-Dickinson model, or of a bare redshift model, is left out (C87_madau_refuted)"
  },
  {
   "property": "C88",
   "status": "proved",
   "theorems": [
    "C88_vt_variance",
    "C88_pdet_variance"
   ],
   "note": ""
  },
  {
   "property": "C89",
   "status": "proved",
   "theorems": [
    "C89_setup",
    "C89_by_name",
    "C89_order_irrelevant"
   ],
   "note": ""
  },
  {
   "property": "C90",
   "status": "proved",
   "theorems": [
    "C90_coordinates"
   ],
   "note": "two variants (power laws, broken power laws) with the exact list of distributions, arguments, fractions and scalars"
  },
  {
   "property": "C91",
   "status": "proved",
   "theorems": [
    "C91_sufficient",
    "C91_no_component_refuted",
    "C91_distinct",
    "C91_used",
    "C91_nothing_else"
   ],
   "note": "sufficient, distinct, used, nothing else: proved; with zero components the model cannot be built (C91_no_component_refuted)"
  },
  {
   "property": "C92",
   "status": "partial",
   "theorems": [
    "C92_primary_checked",
    "C92_secondary_unchecked_refuted"
   ],
   "note": "only the primary spin is checked (C92_primary_checked); the statement for the secondary spin is refuted: its mean and variance never influence the verdict"
  },
  {
   "property": "C93",
   "status": "proved",
   "theorems": [
    "C93_density",
    "C93_outside"
   ],
   "note": "density identified exactly, including the interpolated normaliser, for validated and unvalidated use; zero outside the limits"
  },
  {
   "property": "C94",
   "status": "partial",
   "theorems": [
    "C94_total_rate",
    "C94_total_rate_refuted"
   ],
   "note": "proved when m2min <= m1min (always so for NSmoothedPowerlawMSmoothedGaussian, where they are equal); refuted for NBrokenPowerlawMGaussian with m1min < m2min: the total falls short of the rate"
  },
  {
   "property": "C95",
   "status": "proved",
   "theorems": [
    "C95_entries_interpreted",
    "C95_meaning_unique",
    "C95_rejected_iff"
   ],
   "note": "the meaning of an entry is a separate inductive relation, shown to be single-valued; success and failure characterised"
  },
  {
   "property": "C96",
   "status": "proved",
   "theorems": [
    "C96_accepted_iff",
    "C96_fixed_or_alias_dependency_refuted"
   ],
   "note": "exact characterisation; the rejection of arguments that name fixed or aliased parameters is stated as C96_fixed_or_alias_dependency_refuted (a finding)"
  },
  {
   "property": "C97",
   "status": "proved",
   "theorems": [
    "C97_file_contents",
    "C97_refused_iff"
   ],
   "note": "any number of axes; contents and refusal characterised"
  },
  {
   "property": "C98",
   "status": "proved",
   "theorems": [
    "C98_marginals_agree",
    "C98_same_total"
   ],
   "note": "both statements for every axis"
  },
  {
   "property": "C99",
   "status": "partial",
   "theorems": [
    "C99_ranges_in_parameter_order",
    "C99_unknown_refused",
    "C99_every_parameter_refuted"
   ],
   "note": "order and refusal proved; the claim that an accepted call has a range for every parameter is refuted (C99_every_parameter_refuted): missing ranges stay None"
  },
  {
   "property": "C100",
   "status": "partial",
   "theorems": [
    "C100_exact_density",
    "C100_density_unique",
    "C100_infinite_value_refuted",
    "C100_nan_value_refuted",
    "C100_dilogarithm_exists"
   ],
   "note": "exact density and finiteness proved for every q, amax and chi_eff except two kinds of points, where the claim is refuted: +inf at |chi_eff| = q amax/(1+q) for q < 1/2, NaN at chi_eff = 0 for q = 1; the dilogarithm (scipy.special.spence) is assumed to be the real dilogarithm, which is shown to exist"
  },
  {
   "property": "C101",
   "status": "partial",
   "theorems": [
    "C101_selection_sound",
    "C101_selection_complete",
    "C101_unknown_option_refuted"
   ],
   "note": "selection and settings characterised in both directions; the rejection of unknown options is refuted: built-in estimators drop them silently"
  },
  {
   "property": "C102",
   "status": "partial",
   "theorems": [
    "C102_coordinates_partial",
    "C102_chi_p_refuted"
   ],
   "note": "proved for all options except --add-truncated-normal-chi-p; with that option every component lacks the chi_p coordinate (C102_chi_p_refuted), because the option is not handed to the model"
  },
  {
   "property": "C103",
   "status": "partial",
   "theorems": [
    "C103_read_back_partial",
    "C103_chi_p_refuted"
   ],
   "note": "proved unless chi_p is generated; then reading fails, or for special numbers of events mixes values of different events (C103_chi_p_refuted)"
  },
  {
   "property": "C104",
   "status": "partial",
   "theorems": [
    "C104_names_distinct",
    "C104_declared_suffice",
    "C104_values_reach_partial",
    "C104_chi_p_refuted"
   ],
   "note": "distinctness and sufficiency proved for all options; every value reaches the model except those of chi_p, which have no effect (C104_chi_p_refuted)"
  },
  {
   "property": "C105",
   "status": "proved",
   "theorems": [
    "C105_covered",
    "C105_settings"
   ],
   "note": "admissible options: those the argument parser accepts (the two groups of alternatives)"
  },
  {
   "property": "C106",
   "status": "partial",
   "theorems": [
    "C106_ranges_partial",
    "C106_effective_spin_refuted"
   ],
   "note": "proved for every parameter but the effective spins, whose draws are kept whatever they are unless the error file has cuts (C106_effective_spin_refuted); masses are not restricted. The redrawing loop is assumed to end"
  },
  {
   "property": "C107",
   "status": "partial",
   "theorems": [
    "C107_given_bounds_partial",
    "C107_default_refuted"
   ],
   "note": "bounds in the file are used and wrapping is proved; the default bounds never take effect, the distribution is built with None (C107_default_refuted)"
  },
  {
   "property": "C108",
   "status": "partial",
   "theorems": [
    "C108_eccentricity_partial",
    "C108_discarded_refuted"
   ],
   "note": "draws in range are kept and results are in range; draws outside become 1.0 instead of undefined (C108_discarded_refuted)"
  },
  {
   "property": "C109",
   "status": "partial",
   "theorems": [
    "C109_registered_partial",
    "C109_refused",
    "C109_by_name_refuted"
   ],
   "note": "proved for lookups by tuple; a lookup by name never succeeds (C109_by_name_refuted)"
  },
  {
   "property": "C110",
   "status": "proved",
   "theorems": [
    "C110_comoving_distance",
    "C110_luminosity_distance",
    "C110_distance_derivative",
    "C110_expansion_rate"
   ],
   "note": "flat or open universes; real arithmetic"
  },
  {
   "property": "C111",
   "status": "proved",
   "theorems": [
    "C111_importance_weights",
    "C111_samples",
    "C111_fallback"
   ],
   "note": "gradient, Hessian, positivity test and Cholesky routine are arbitrary functions; the fitted factor is assumed lower triangular with positive diagonal"
  },
  {
   "property": "C112",
   "status": "proved",
   "theorems": [
    "C112_exact_for_gaussians"
   ],
   "note": "gradient and Hessian are assumed to be the derivatives, the fitted factor to factor the fitted covariance"
  },
  {
   "property": "C113",
   "status": "proved",
   "theorems": [
    "C113_accepted",
    "C113_events",
    "C113_data",
    "C113_weights",
    "C113_posterior"
   ],
   "note": "HDF5 files as lists of groups; a mean with more than one axis also passes the check of shapes"
  },
  {
   "property": "C114",
   "status": "partial",
   "theorems": [
    "C114_required",
    "C114_powerlaw_peak",
    "C114_two_peak_full",
    "C114_full_marginal",
    "C114_peak_marginal",
    "C114_bound_orbits_refuted",
    "C114_multi_spin_required",
    "C114_multi_spin",
    "C114_multi_spin_marginal",
    "C114_multi_spin_bound_orbits_refuted"
   ],
   "note": "proved except for the eccentricity of PowerlawPeak and of the multi-spin model: their half normal gives unbound orbits a positive density (C114_bound_orbits_refuted, C114_multi_spin_bound_orbits_refuted); the mass densities are those of C67, PowerlawPeak's spins at exactly 0 or 1 are left out and betaln is assumed to be the logarithm of the Beta integral when spins are integrated out"
  },
  {
   "property": "C115",
   "status": "proved",
   "theorems": [
    "C115_density",
    "C115_total_rate",
    "C115_nothing_outside",
    "C115_columns",
    "C115_arguments",
    "C115_wrong_arguments"
   ],
   "note": "parameters are finite numbers; the line m1 = mmin is left out"
  },
  {
   "property": "C116",
   "status": "proved",
   "theorems": [
    "C116_reversible",
    "C116_invariant",
    "C116_draws"
   ],
   "note": "exact arithmetic; the integral of a non-negative continuous function is the least upper bound of the iterated integrals of continuous functions with bounded support below it; the draws are independent standard normals and a uniform; linalg.solve and cholesky are exact; one step, for repeated steps see C50"
  },
  {
   "property": "C117",
   "status": "partial",
   "theorems": [
    "C117_accepted_well_formed",
    "C117_diagonal_accepted",
    "C117_positive_definite",
    "C117_target_invariant",
    "C117_template_accepted",
    "C117_mass_matrix_refuted",
    "C117_empty_run_refuted"
   ],
   "note": "proved for the keys, the counts, the sampler name, the template, numbers, diagonals and symmetric matrices; false in general: a matrix that is not symmetric, NaN and a text are accepted as mass matrix (C117_mass_matrix_refuted), and a thinning larger than the number of steps is accepted and gives an empty samples file (C117_empty_run_refuted); eigvalsh is assumed to give the eigenvalues of the symmetric part"
  },
  {
   "property": "C118",
   "status": "partial",
   "theorems": [
    "C118_reciprocal_variances",
    "C118_accepted",
    "C118_standardised",
    "C118_one_parameter_refuted"
   ],
   "note": "proved for tables with at least two columns; false for one parameter: loadtxt drops the axis and the script refuses any number of samples (C118_one_parameter_refuted); exact arithmetic, the rounding of the printed numbers is left out"
  },
  {
   "property": "C119",
   "status": "partial",
   "theorems": [
    "C119_curves",
    "C119_nested",
    "C119_coverage",
    "C119_figures",
    "C119_mixed_headers_refuted"
   ],
   "note": "proved for one file and for files with the same headers; files with differently ordered headers are mixed in one figure (C119_mixed_headers_refuted); at least one posterior sample"
  },
  {
   "property": "C120",
   "status": "partial",
   "theorems": [
    "C120_table",
    "C120_forgetting",
    "C120_forgetting_refuted",
    "C120_suggestions_accepted",
    "C120_batch_refuted"
   ],
   "note": "proved except for the first loop with forgotten samples, which is not marked unless the samples of a loop divide the window (C120_forgetting_refuted), and for the batch size, which can exceed the training set (C120_batch_refuted)"
  },
  {
   "property": "C121",
   "status": "proved",
   "theorems": [
    "C121_density_unique",
    "C121_exact_density",
    "C121_dilogarithm_exists",
    "C121_zero_outside",
    "C121_not_negative",
    "C121_symmetric"
   ],
   "note": "the complex dilogarithm is a parameter with its derivative off the cut; such a function is constructed (C121_dilogarithm_exists); real arithmetic; nan_to_num is the identity on the branch taken"
  },
  {
   "property": "C122",
   "status": "partial",
   "theorems": [
    "C122_density",
    "C122_marginals",
    "C122_moments",
    "C122_draws",
    "C122_full_correlation",
    "C122_ranges_refuted"
   ],
   "note": "density, marginals, moments and draws proved; the restriction to the documented ranges is false: every pair of real numbers has a positive density (C122_ranges_refuted)"
  },
  {
   "property": "C123",
   "status": "partial",
   "theorems": [
    "C123_catalogue",
    "C123_fresh",
    "C123_one_size_refuted",
    "C123_second_run_refuted",
    "C123_paths"
   ],
   "note": "files and their contents proved for every path; all realizations share one Poisson number of events (C123_one_size_refuted), and posteriors of an earlier run with more events stay in the directory (C123_second_run_refuted); np.savetxt and np.loadtxt are taken to keep the numbers"
  },
  {
   "property": "C124",
   "status": "partial",
   "theorems": [
    "C124_vt_log",
    "C124_pdet_plain",
    "C124_vt_zero_refuted",
    "C124_vt_plain_refuted",
    "C124_pdet_log_refuted",
    "C124_pdet_log_count_refuted",
    "C124_pdet_bce_refuted"
   ],
   "note": "true for volumes learned as logarithms (if positive) and probabilities learned as they are; false for the other options, since the estimators never read the recorded is_log attribute: probabilities learned as logarithms make every expected count zero, logits (the recommended loss) are taken for probabilities, volumes learned as they are get exponentiated, a zero volume learned as a logarithm counts as almost one (the _refuted theorems)"
  },
  {
   "property": "C125",
   "status": "partial",
   "theorems": [
    "C125_chains",
    "C125_after_header",
    "C125_hist",
    "C125_events",
    "C125_first_sample_refuted",
    "C125_shifted_refuted",
    "C125_first_column_refuted",
    "C125_catalogue_refuted"
   ],
   "note": "true for the convergence scripts and hist_overplot on sampler output, for sage and the catalogue generator, and for the scatter scripts and the reader of events on catalogue files; false for chain_plot, corner_plot and corner_overplot, which take the first sample for a header and lose it, and for the scatter scripts on sampler output: with the header '# a b' every name gets the values of the next parameter, with '#a b' the first column is not found (the _refuted theorems)"
  },
  {
   "property": "C126",
   "status": "partial",
   "theorems": [
    "C126_overplot_iff",
    "C126_overplot_same",
    "C126_overplot_refuted",
    "C126_scatter_iff",
    "C126_scatter_groups",
    "C126_scatter_refuted",
    "C126_curves_refuted"
   ],
   "note": "corner_overplot reorders with the inverse permutation: right exactly when the orders differ by exchanges of pairs (C126_overplot_iff), wrong for three columns in cyclic order; scatter2d draws exactly when the labels are all numbers below some number (C126_scatter_iff), then with the right points, colours and names, but fails when a component has no event, or with a palette and legend given names it as another; the curves of the convergence scripts are parameters and carry names of chain files (the _refuted theorems)"
  },
  {
   "property": "C127",
   "status": "partial",
   "theorems": [
    "C127_points",
    "C127_one_more_refuted",
    "C127_ess_per_draw"
   ],
   "note": "divisions and the last point proved; every earlier point at d shows the first d + 1 draws, because the label-based slice includes its end (C127_one_more_refuted); ess_plot divides the production column by the number of training draws, right exactly when both phases have equally many draws (C127_ess_per_draw)"
  },
  {
   "property": "C128",
   "status": "proved",
   "theorems": [
    "C128_frames",
    "C128_reduced_mass",
    "C128_difference_ratio",
    "C128_difference_ratio_back",
    "C128_mass_from_ratio",
    "C128_spin_difference",
    "C128_guards"
   ],
   "note": "finite arguments, exact arithmetic"
  },
  {
   "property": "C129",
   "status": "partial",
   "theorems": [
    "C129_names",
    "C129_order",
    "C129_contents",
    "C129_acceptances",
    "C129_clean",
    "C129_stale_refuted"
   ],
   "note": "names, order, contents and acceptances proved; that the files are those of the run holds in a fresh directory (C129_clean) and fails after an earlier run with more chains (C129_stale_refuted); the loss file is not modelled"
  },
  {
   "property": "C130",
   "status": "partial",
   "theorems": [
    "C130_set_key",
    "C130_reads",
    "C130_run",
    "C130_purposes",
    "C130_chains",
    "C130_likelihood",
    "C130_joint",
    "C130_lazy",
    "C130_mixture",
    "C130_nested",
    "C130_choice_refuted",
    "C130_catalogue_refuted",
    "C130_redraw_refuted"
   ],
   "note": "proved for Sage and Monk runs with both samplers, for joints, lazy joints, mixtures, NumPyro batches and the Monte-Carlo loops; the strategies of the flowMC library are assumed to keep their keys apart. Refuted for mock catalogues: the detected events are chosen with a key derived from that of the mixture components, the errors of the second realization use the keys that generate the populations, and replacements of rejected errors are drawn with children of a key already used"
  },
  {
   "property": "C131",
   "status": "partial",
   "theorems": [
    "C131_accepts",
    "C131_settings",
    "C131_analysis",
    "C131_order",
    "C131_backends",
    "C131_parameters",
    "C131_compatible",
    "C131_counts",
    "C131_counts_refuted",
    "C131_variance_cut_refuted"
   ],
   "note": "proved for all twelve commands and all command lines without a bare --. Refuted in two points: the numbers of components may be left out although the model then cannot be set up (TypeError), and the Monk commands accept --variance-cut-threshold without using it"
  },
  {
   "property": "C132",
   "status": "partial",
   "theorems": [
    "C132_accepts",
    "C132_kernel",
    "C132_dense",
    "C132_names_refuted",
    "C132_mcmc",
    "C132_chains",
    "C132_method",
    "C132_template"
   ],
   "note": "proved for every file, signature and number of devices, except the last sentence, which is refuted: a dense_mass list of names is cut into letters"
  },
  {
   "property": "C133",
   "status": "partial",
   "theorems": [
    "C133_batch",
    "C133_density",
    "C133_z_max_refuted",
    "C133_draws",
    "C133_draws_refuted",
    "C133_log_norm",
    "C133_log_norm_refuted",
    "C133_tabulated",
    "C133_joint",
    "C133_joint_refuted",
    "C133_mixture",
    "C133_mixture_refuted",
    "C133_lazy_density",
    "C133_lazy_draws",
    "C133_lazy_refuted"
   ],
   "note": "log_prob: proved for all classes, refuted for a redshift model with a vector z_max and for a mixture of components with different batch shapes. sample: proved for the truncated power law, for scalar parameters of the mass-ratio, Wysocki and redshift models, for joint distributions without a batch, for lazy joint distributions with as many axes of samples as the event has plus one, and for mixtures. Refuted: with a batch the mass models ignore it, the redshift models fail, a joint distribution never draws what it declares, and a lazy one has too many columns for two axes of samples. log_norm of a redshift model with a vector kappa integrates over the wrong axis or fails"
  },
  {
   "property": "C134",
   "status": "proved",
   "theorems": [
    "C134_sum",
    "C134_order",
    "C134_growth",
    "C134_minus_infinity",
    "C134_posterior",
    "C134_single",
    "C134_single_million"
   ],
   "note": "Overflow is left out: the format has no largest number. The log densities, log reference priors, log prior, log constants and expected rate are taken as the floats they are, whatever their own errors. For single precision, which jax uses unless told otherwise and which nothing under src changes, C134_single and C134_single_million give numbers. The error of the weights grows with the logarithm of the number of samples; only the chains of additions enter linearly"
  },
  {
   "property": "C135",
   "status": "partial",
   "theorems": [
    "C135_error",
    "C135_cancels",
    "C135_no_number",
    "C135_stable_refuted"
   ],
   "note": "Refuted as stated: close arguments give -inf (C135_cancels, C135_stable_refuted). The error bound for separated arguments is proved for all precisions and library functions of bounded error"
  },
  {
   "property": "C136",
   "status": "proved",
   "theorems": [
    "C136_width",
    "C136_number",
    "C136_none",
    "C136_automatic"
   ],
   "note": "jenkspy.jenks_breaks is assumed to return the minimum and strictly increasing upper ends of the classes (classes); C136_width needs no assumption. Percentages are exact fractions. The docstring of pad_and_stack says that the threshold determines the maximum size of the buckets, which the code does not do"
  },
  {
   "property": "C137",
   "status": "proved",
   "theorems": [
    "C137_rate",
    "C137_none",
    "C137_variance",
    "C137_sign",
    "C137_single",
    "C137_single_variance"
   ],
   "note": "Overflow is left out: the format has no largest number. Log densities and log draw densities are taken as the floats they are"
  },
  {
   "property": "C138",
   "status": "proved",
   "theorems": [
    "C138_per_redshift",
    "C138_table",
    "C138_comoving",
    "C138_luminosity",
    "C138_single"
   ],
   "note": "Negative curvature densities are left out (the cosmologies of the repository have none). Overflow is left out, and products fused with sums. quadax.cumulative_trapezoid and jnp.interp are read from their published source: their code is not in the repository"
  },
  {
   "property": "C139",
   "status": "partial",
   "theorems": [
    "C139_accepted",
    "C139_order",
    "C139_events",
    "C139_alone",
    "C139_thinned_refuted",
    "C139_ignored",
    "C139_ignored_refuted"
   ],
   "note": "Acceptance, settings, order and one event per file are proved. Refuted: an entry with a misspelled name is ignored (C139_ignored_refuted; C139_ignored says so for every unknown name), and the samples kept of a thinned event depend on the place of its file, so a new file changes them (C139_thinned_refuted); without thinning they do not (C139_alone)"
  },
  {
   "property": "C140",
   "status": "partial",
   "theorems": [
    "C140_release",
    "C140_nightly",
    "C140_refused",
    "C140_well_formed",
    "C140_level",
    "C140_preset",
    "C140_preset_refuted",
    "C140_file",
    "C140_file_refuted",
    "C140_path",
    "C140_path_elsewhere",
    "C140_path_refuted"
   ],
   "note": "Everything about the version is proved, and which levels are accepted, the place of the log file and the paths. Refuted: the level without the variable is TRACE, not the documented WARNING (C140_preset, C140_preset_refuted); an absolute GWKOKAB_LOG_FILE leaves the log directory (C140_file_refuted; C140_file for every other name); with site-packages twice in a path the name of the file is lost (C140_path_refuted; C140_path otherwise)"
  },
  {
   "property": "C141",
   "status": "partial",
   "theorems": [
    "C141_points",
    "C141_color_refuted",
    "C141_failed",
    "C141_failed_refuted",
    "C141_same_file",
    "C141_batch",
    "C141_batch_labels_refuted",
    "C141_batch_own_output"
   ],
   "note": "Points, colours by the third column, labels of scatter3d, order of the batch and the other files are proved. Refuted: with --color both scripts always fail, because data[:, k] is no index of a DataFrame (C141_color_refuted); batch_scatter3d never sets the label of the third axis and draws no colour bar (C141_batch_labels_refuted); the output is emptied before anything is read, so a failing run destroys an earlier figure (C141_failed_refuted; C141_failed says when), as well as data named as output (C141_same_file), and a pattern that matches the output makes the batch fail (C141_batch_own_output)"
  },
  {
   "property": "C142",
   "status": "partial",
   "theorems": [
    "C142_error",
    "C142_error_minus_one",
    "C142_amplification",
    "C142_cancels",
    "C142_refuted"
   ],
   "note": "C142_error and C142_error_minus_one give the bound, as long as the relative error of the normaliser is below one; C142_amplification says the errors of the powers count at most 1 + 2 / (|1 + alpha| log (high / low)) times. Refuted for all alpha: where |1 + alpha| times the logarithms of the bounds is within a third of the unit roundoff both powers round to one and the log density is +inf for every x (C142_cancels), e.g. alpha = -3/4 and mass ratios between one and the float below it (C142_refuted). Overflow and the custom derivative are outside the model"
  },
  {
   "property": "C143",
   "status": "proved",
   "theorems": [
    "C143_equal",
    "C143_hash",
    "C143_dictionary",
    "C143_no_double",
    "C143_index",
    "C143_members"
   ],
   "note": "for every hash function of texts, also one with clashes; dictionaries by assignments, without deletion"
  },
  {
   "property": "C144",
   "status": "partial",
   "theorems": [
    "C144_error",
    "C144_outside",
    "C144_equal_ends",
    "C144_refuted",
    "C144_wide_refuted",
    "C144_tail_error"
   ],
   "note": "C144_error is the bound for a mean between the bounds, as long as the error of the mass is below the mass; C144_outside is exact. Refuted for all arguments: bounds that round to the same number of standard deviations give +inf (C144_equal_ends, C144_refuted for every library), and so does a normal 2^(prec+3) times wider than the bounds with a correctly rounded ndtr (C144_wide_refuted). For a mean outside the bounds C144_tail_error gives the bound against the exact density for bounds that are moved by the rounding of the standardised values"
  },
  {
   "property": "C145",
   "status": "partial",
   "theorems": [
    "C145_constant",
    "C145_special",
    "C145_below_half",
    "C145_around_one",
    "C145_error",
    "C145_refuted"
   ],
   "note": "C145_error is the bound for all real z >= 0 except within 1e-100 of 3 - sqrt 3 and 3 + sqrt 3, where 1 + 4 v + v^2 vanishes; C145_below_half and C145_around_one are sharper. Refuted for all z: the truncated numerator does not vanish there and the quotient is unbounded (C145_refuted). Missing: complex arguments and the roundings"
  },
  {
   "property": "C146",
   "status": "partial",
   "theorems": [
    "C146_roundtrip",
    "C146_leaves",
    "C146_slices",
    "C146_reached",
    "C146_static",
    "C146_support",
    "C146_powerlaw_refuted",
    "C146_lazy_refuted",
    "C146_block_lost",
    "C146_refuted"
   ],
   "note": "C146_roundtrip holds for all instances that contain no BlockTransform, C146_leaves says which leaves a mapped function reaches, C146_reached and C146_static say which attributes of each class are reached and which stay as they are, C146_slices and C146_support are the two consequences. Refuted in full: a BlockTransform loses its domain and codomain and falls back to constraints.real (C146_block_lost, C146_refuted); the support of DoublyTruncatedPowerLaw is static and keeps the old bounds (C146_powerlaw_refuted); the event slices of a _LazyConstraint are handed to jax and are no longer ints under jax.jit (C146_lazy_refuted)"
  },
  {
   "property": "C147",
   "status": "proved",
   "theorems": [
    "C147_reads_back",
    "C147_blocks",
    "C147_template",
    "C147_value_refuted"
   ],
   "note": "C147_reads_back is for all settings, C147_blocks for settings like the template's, C147_template for the template itself. Numbers are kept as their literal text. C147_value_refuted: without the condition on text values the blocks are wrong, since the code looks for the quoted name anywhere in the line, also in the value"
  },
  {
   "property": "C148",
   "status": "proved",
   "theorems": [
    "C148_comoving",
    "C148_luminosity",
    "C148_planck_2015",
    "C148_planck_2018",
    "C148_round_trip"
   ],
   "note": "C148_comoving and C148_luminosity are the second-order bounds (C110 has the first-order ones for universes with curvature and radiation), C148_planck_2015, C148_planck_2018 and C148_round_trip the two instances. Exact arithmetic; roundings are the subject of C138"
  },
  {
   "property": "C149",
   "status": "proved",
   "theorems": [
    "C149_mass_matrix",
    "C149_precedence",
    "C149_float",
    "C149_suggestions",
    "C149_number_refuted",
    "C149_unknown"
   ],
   "note": "C149_mass_matrix, C149_precedence, C149_float, C149_suggestions and C149_unknown are the claim. C149_number_refuted: the template of gwk_flowMC_cfg_template is accepted for every number of parameters, has a mass_matrix, and still gets the message to put one in (the message also names --n_dims, the option is --n-dims)"
  },
  {
   "property": "C150",
   "status": "partial",
   "theorems": [
    "C150_shape",
    "C150_lipschitz",
    "C150_output",
    "C150_reloaded",
    "C150_rows",
    "C150_per_instance",
    "C150_two_outputs_refuted",
    "C150_logits_refuted",
    "C150_activation_refuted"
   ],
   "note": "C150_shape, C150_output, C150_lipschitz, C150_rows, C150_reloaded and C150_per_instance are the claim for one output and the mse loss. Refuted: with two or more output keys the script saves the network and then fails (C150_two_outputs_refuted); after bce_logits the plotted losses compare probabilities with logits (C150_logits_refuted); save_model does not record the activation, so a network with another one than relu changes (C150_activation_refuted). Exact arithmetic"
  },
  {
   "property": "C151",
   "status": "partial",
   "theorems": [
    "C151_mse",
    "C151_entries",
    "C151_zero",
    "C151_bce",
    "C151_detections",
    "C151_log",
    "C151_mean_refuted"
   ],
   "note": "C151_mse, C151_entries, C151_zero, C151_bce and C151_detections are the claim. Refuted in the last sentence: with train_in_log the least loss is at the geometric mean, never above the mean and below it as soon as two targets differ (C151_log), for example 2 instead of 5/2 (C151_mean_refuted). Exact arithmetic; whether the optimiser reaches the minimum is not modelled"
  }
 ]
}