{
 "claims": [
  {
   "property": "C01",
   "status": "proved",
   "theorems": [
    "C01_weights_normalised",
    "C01_scale_invariant",
    "C01_accepted_lengths"
   ],
   "note": ""
  },
  {
   "property": "C02",
   "status": "partial",
   "theorems": [
    "C02_equal_fallback_refuted",
    "C02_zero_fallback_partial"
   ],
   "note": "refuted: with no positive finite weight zeros are stored, not equal weights; proved that the stored weights are then all zero and otherwise follow C01"
  },
  {
   "property": "C03",
   "status": "proved",
   "theorems": [
    "C03_convex_combination"
   ],
   "note": ""
  },
  {
   "property": "C04",
   "status": "partial",
   "theorems": [
    "C04_live_components_partial",
    "C04_selection_law",
    "C04_dead_component_refuted"
   ],
   "note": "refuted when every weight is unusable: the last component is always sampled though it was given weight zero; selection law and liveness proved otherwise"
  },
  {
   "property": "C05",
   "status": "proved",
   "theorems": [
    "C05_uniform_density",
    "C05_inside_outside"
   ],
   "note": ""
  },
  {
   "property": "C06",
   "status": "partial",
   "theorems": [
    "C06_integral_fraction_partial",
    "C06_integral_support",
    "C06_integral_monotone_partial",
    "C06_disjoint_negative_refuted",
    "C06_disjoint_positive_refuted",
    "C06_flat_query_refuted"
   ],
   "note": "refuted: disjoint query boxes give negative mass (1-D) or spurious mass above one (2-D), flat boxes raise; proved when the query box meets the support"
  },
  {
   "property": "C07",
   "status": "partial",
   "theorems": [
    "C07_samples_in_support_partial",
    "C07_lower_face_refuted"
   ],
   "note": "refuted: a unit draw of exactly zero puts the sample on a lower face with density zero; proved for positive draws, and for the closed support always"
  },
  {
   "property": "C08",
   "status": "proved",
   "theorems": [
    "C08_density_after_history",
    "C08_peak_at_mean",
    "C08_translation",
    "C08_diagonal",
    "C08_peak_needs_psd",
    "C08_normalised_1d"
   ],
   "note": "for covariances with positive semi-definite inverse as stated; C08_peak_needs_psd shows the condition is needed and that the constructor does not enforce it"
  },
  {
   "property": "C09",
   "status": "partial",
   "theorems": [
    "C09_unit_mean_partial",
    "C09_unit_mean_iff_partial",
    "C09_mean_e_refuted",
    "C09_outlier_log_refuted",
    "C09_no_positive_row_refuted"
   ],
   "note": "refuted: right exactly for mean one; wrong density for every other mean, log density 0 outside the support, IndexError for a batch without positive rows"
  },
  {
   "property": "C10",
   "status": "partial",
   "theorems": [
    "C10_densities",
    "C10_normalised",
    "C10_log_density_partial",
    "C10_maxwell_log_refuted"
   ],
   "note": "refuted: the Maxwell log density is 0 where the density is 0; densities, normalisation, Laplace and Pareto log densities proved in full"
  },
  {
   "property": "C11",
   "status": "partial",
   "theorems": [
    "C11_benchden_uniform_refuted"
   ],
   "note": "refuted: density 1/2 on (-1/2, 3/2]"
  },
  {
   "property": "C12",
   "status": "proved",
   "theorems": [
    "C12_compact_kernels",
    "C12_location_bandwidth",
    "C12_normal_kernel"
   ],
   "note": "the normal kernel uses a rounded constant: its integral is strictly below one and within 1e-11 of it"
  },
  {
   "property": "C13",
   "status": "partial",
   "theorems": [
    "C13_flat_vector_refuted",
    "C13_laplace_column_refuted",
    "C13_shape_contract_partial",
    "C13_one_value_per_row",
    "C13_empty_batch_refuted"
   ],
   "note": "refuted: the empty batch raises IndexError, flat vectors are refused by the exponential and Maxwell densities, Laplace answers with a column; accepted shapes of the common check characterised exactly"
  },
  {
   "property": "C14",
   "status": "proved",
   "theorems": [
    "C14_estimate_bounded",
    "C14_constant_exact"
   ],
   "note": ""
  },
  {
   "property": "C15",
   "status": "proved",
   "theorems": [
    "C15_from_log_likelihood",
    "C15_from_likelihood",
    "C15_no_value"
   ],
   "note": ""
  },
  {
   "property": "C16",
   "status": "proved",
   "theorems": [
    "C16_answers_iff_conditioned",
    "C16_log_surrogate",
    "C16_likelihood_surrogate"
   ],
   "note": ""
  },
  {
   "property": "C17",
   "status": "proved",
   "theorems": [
    "C17_kl_divergence",
    "C17_entry_points_agree",
    "C17_scale_invariant"
   ],
   "note": ""
  },
  {
   "property": "C18",
   "status": "partial",
   "theorems": [
    "C18_disjoint_zero_refuted",
    "C18_disjoint_always_zero",
    "C18_uncovered_mass_refuted",
    "C18_density_entry_partial"
   ],
   "note": "refuted: the reported value is 0 for every disjoint pair, and mass of p where q vanishes is ignored; the density entry point returns inf for disjoint supports"
  },
  {
   "property": "C19",
   "status": "proved",
   "theorems": [
    "C19_js_divergence",
    "C19_symmetric",
    "C19_scale_invariant",
    "C19_nan_points_ignored"
   ],
   "note": ""
  },
  {
   "property": "C20",
   "status": "partial",
   "theorems": [
    "C20_disjoint_zero_refuted",
    "C20_disjoint_always_zero"
   ],
   "note": "refuted: every disjoint pair is reported as 0"
  },
  {
   "property": "C21",
   "status": "proved",
   "theorems": [
    "C21_evmse_value",
    "C21_evmse_proportional",
    "C21_evmse_scale",
    "C21_evmse_symmetric"
   ],
   "note": "the norm is a square root, so the squared value is stated over the rationals"
  },
  {
   "property": "C22",
   "status": "proved",
   "theorems": [
    "C22_approx_ness_range",
    "C22_approx_ness_scale"
   ],
   "note": "over exact rationals; weights given as the list of the object"
  },
  {
   "property": "C23",
   "status": "proved",
   "theorems": [
    "C23_elapsed_total",
    "C23_elapsed_new"
   ],
   "note": ""
  },
  {
   "property": "C24",
   "status": "partial",
   "theorems": [
    "C24_memory_reset_refuted",
    "C24_memory_total_partial"
   ],
   "note": "refuted: reset() does not clear the accumulated value; additivity over calls proved"
  },
  {
   "property": "C25",
   "status": "proved",
   "theorems": [
    "C25_rejection_request",
    "C25_rejection_terminates"
   ],
   "note": "rejection loop over arbitrary tapes; request, prefix, weights, and termination for every sufficiently accepting tape"
  },
  {
   "property": "C26",
   "status": "proved",
   "theorems": [
    "C26_rejection_rule",
    "C26_rejection_positive"
   ],
   "note": "accepted samples are exactly the kept offers, in order"
  },
  {
   "property": "C27",
   "status": "partial",
   "theorems": [
    "C27_rejection_counters_exact_refuted",
    "C27_rejection_counters_partial",
    "C27_rejection_counter_law_partial",
    "C27_rejection_effort_history_partial",
    "C27_rejection_acceptance_rate"
   ],
   "note": "refuted: each round counts the whole request although only the missing points are drawn. Proved: the exact law of the counters over all histories (rounds run times request, plus points returned by sample()), and the acceptance rate is in (0,1]"
  },
  {
   "property": "C28",
   "status": "partial",
   "theorems": [
    "C28_rejection_returns_refuted",
    "C28_rejection_returns_partial"
   ],
   "note": "refuted: a timeout before the first acceptance raises; returns whenever at least one sample is held"
  },
  {
   "property": "C29",
   "status": "proved",
   "theorems": [
    "C29_mh_confined",
    "C29_mh_sample_confined"
   ],
   "note": ""
  },
  {
   "property": "C30",
   "status": "proved",
   "theorems": [
    "C30_mh_bookkeeping",
    "C30_mh_sample_labels"
   ],
   "note": ""
  },
  {
   "property": "C31",
   "status": "partial",
   "theorems": [
    "C31_mh_sample_n_refuted",
    "C31_mh_sample_rows_partial"
   ],
   "note": "refuted: sample(n) returns n*n rows"
  },
  {
   "property": "C32",
   "status": "partial",
   "theorems": [
    "C32_mh_moves_accepted_refuted",
    "C32_mh_moves_accepted_partial",
    "C32_mh_acceptance_rule",
    "C32_mh_zero_density_rejected"
   ],
   "note": "refuted on timeout (last refused proposal becomes the state); proved when no clock reading reaches the limit; acceptance test equals the Metropolis-Hastings rule"
  },
  {
   "property": "C33",
   "status": "partial",
   "theorems": [
    "C33_acceptance_probability",
    "C33_detailed_balance_partial",
    "C33_step_law",
    "C33_not_stationary_refuted"
   ],
   "note": "refuted: a rejected attempt is repeated instead of counting as a step, so the target is not stationary; acceptance probability and detailed balance of one attempt, and the law of the repeated attempts, are proved"
  },
  {
   "property": "C34",
   "status": "partial",
   "theorems": [
    "C34_nested_sorted",
    "C34_nested_attached_partial",
    "C34_multi_attached_partial",
    "C34_first_attached_refuted"
   ],
   "note": "refuted for the first sample, which is a view of the live point being replaced; order of the likelihoods and attachment of all later ones proved (attachment also for multi-nested)"
  },
  {
   "property": "C35",
   "status": "partial",
   "theorems": [
    "C35_nested_weights",
    "C35_prior_mass_refuted",
    "C35_nested_weights_zero"
   ],
   "note": "refuted: the shells add up to 2 - exp(-(n-1)/N) > 1; finiteness, sign, sum and proportionality of the weights proved"
  },
  {
   "property": "C36",
   "status": "partial",
   "theorems": [
    "C36_nested_confined_partial",
    "C36_multi_confined_partial",
    "C36_nested_confined_refuted"
   ],
   "note": "refuted: redraws are not clipped; proved for targets that vanish outside the space when no search is cut off"
  },
  {
   "property": "C37",
   "status": "proved",
   "theorems": [
    "C37_clustering_partition",
    "C37_clustering_too_few"
   ],
   "note": "the k-means labels, ellipsoid volumes and distances are arbitrary oracles"
  },
  {
   "property": "C38",
   "status": "partial",
   "theorems": [
    "C38_nested_request",
    "C38_nested_failure",
    "C38_multi_request_partial",
    "C38_multi_request_refuted"
   ],
   "note": "refuted for multi-nested sampling, which rounds the number of draws per group down; proved for nested sampling"
  },
  {
   "property": "C39",
   "status": "partial",
   "theorems": [
    "C39_dm_request",
    "C39_dm_weights",
    "C39_dm_counters_partial",
    "C39_dm_q_evals_refuted",
    "C39_dm_q_evals_zero",
    "C39_dm_counters_refuted"
   ],
   "note": "refuted: the proposal-evaluation counter is never incremented, and a call whose batch misses the target's support raises ValueError with the counters already advanced; request, weights and the other counters proved"
  },
  {
   "property": "C40",
   "status": "proved",
   "theorems": [
    "C40_dm_run",
    "C40_dm_batch"
   ],
   "note": "a batch with zero target density everywhere raises instead (characterised exactly)"
  },
  {
   "property": "C41",
   "status": "proved",
   "theorems": [
    "C41_lais_means"
   ],
   "note": ""
  },
  {
   "property": "C42",
   "status": "proved",
   "theorems": [
    "C42_lais_effort"
   ],
   "note": ""
  },
  {
   "property": "C43",
   "status": "partial",
   "theorems": [
    "C43_mixture_weights_partial",
    "C43_mixture_weights_refuted",
    "C43_posteriors",
    "C43_means_in_batch",
    "C43_returned_weights_partial",
    "C43_returned_weights_refuted",
    "C43_missed_target_refuted",
    "C43_quotients"
   ],
   "note": "refuted: the returned weights are normalised per batch only and sum to the number of batches; a batch missing the target's support gives NaN weights (and a NaN mixture); after a refused covariance the mixture weights no longer sum to one. Proved: mixture weights, posteriors and means whenever no call raised since the last reset, weights non-negative with sum = number of batches. The quotients are shown equal to the code's exp/log expressions over the reals"
  },
  {
   "property": "C44",
   "status": "partial",
   "theorems": [
    "C44_moments_partial",
    "C44_scatter_dominates",
    "C44_covariance_refuted"
   ],
   "note": "refuted: the covariance is the raw unweighted scatter around the new mean (or 10 times the identity when an entry exceeds 10), never smaller than the weighted covariance; the mean is the weighted mean of equation 14.2"
  },
  {
   "property": "C45",
   "status": "proved",
   "theorems": [
    "C45_bookkeeping",
    "C45_children"
   ],
   "note": ""
  },
  {
   "property": "C46",
   "status": "proved",
   "theorems": [
    "C46_partition",
    "C46_unique_leaf",
    "C46_sampler_partition"
   ],
   "note": ""
  },
  {
   "property": "C47",
   "status": "partial",
   "theorems": [
    "C47_find_partial",
    "C47_get_child",
    "C47_find_refuted",
    "C47_find_never"
   ],
   "note": "refuted: find resets its start node to the root, so once the root is expanded every lookup ends in RecursionError; proved: on an unexpanded tree it returns the root, and the single step get_child returns a child cell containing the point for every node and every point of its cell"
  },
  {
   "property": "C48",
   "status": "partial",
   "theorems": [
    "C48_resample_partial",
    "C48_node_partial",
    "C48_leaves",
    "C48_boundary_refuted",
    "C48_normal_refuted"
   ],
   "note": "Leaf resampling with the uniform kernel (all trees, targets, half-open draws), the draw of a node (all kernels, open draws) and the leaves of all simple-flow histories are proved. Refuted: the draw 0 gives an infinite weight, NaN after normalisation; with the normal kernel the resampling weights ignore the scale of the cell."
  },
  {
   "property": "C49",
   "status": "partial",
   "theorems": [
    "C49_density",
    "C49_outside",
    "C49_mass_partial",
    "C49_fresh_refuted",
    "C49_faces_refuted"
   ],
   "note": "Formula inside and outside the leaves for every state; mass one or identically zero after every returned call of the simple flow, exactly one for positive targets. Refuted: a fresh or reset object reports zero everywhere; on faces between leaves the density is zero."
  },
  {
   "property": "C50",
   "status": "partial",
   "theorems": [
    "C50_one_per_leaf_partial",
    "C50_overlap_refuted",
    "C50_last_only_refuted",
    "C50_sound"
   ],
   "note": "Exact when an expansion never waits for more samples (ESS target at least 1, n_min at most 1); nothing is invented in any mode. Refuted: with n_min 2 samples held by leaves are lost (overlapping slices for ESS target 1, only the last one for ESS target 2)."
  },
  {
   "property": "C51",
   "status": "partial",
   "theorems": [
    "C51_simple_partial",
    "C51_simple_refuted",
    "C51_mixture"
   ],
   "note": "Mixture flow exact after every history. Simple flow: after the first call the evaluations of the root are missing by exactly one (refuted), otherwise exact."
  },
  {
   "property": "C52",
   "status": "proved",
   "theorems": [
    "C52_partition"
   ],
   "note": ""
  },
  {
   "property": "C53",
   "status": "partial",
   "theorems": [
    "C53_keeps_samples_partial",
    "C53_after_failure_refuted"
   ],
   "note": "proved for every call of a history in which no call failed since the last reset. Refuted after a failed call: its samples stay in the tree but are not counted, so the next call returns too many"
  },
  {
   "property": "C54",
   "status": "partial",
   "theorems": [
    "C54_root_partial",
    "C54_path_partial",
    "C54_parent_refuted"
   ],
   "note": "proved for the root in every history and for every node a draw passed except the leaf's direct parent, which is proved to keep its old value; refuted by a tree of depth two"
  },
  {
   "property": "C55",
   "status": "partial",
   "theorems": [
    "C55_failures_partial",
    "C55_call_ends",
    "C55_fine_draws_partial",
    "C55_zero_draw_refuted",
    "C55_split_plane_refuted"
   ],
   "note": "a call returns, or fails with exactly the two documented causes; with draws that are no dyadic rationals no call of any history fails. Refuted for the draw 0 (assertion) and for a sample on a split plane (ValueError)"
  },
  {
   "property": "C56",
   "status": "partial",
   "theorems": [
    "C56_evaluation_ends_partial",
    "C56_time_limit_refuted"
   ],
   "note": "proved for methods whose calls end and gain a sample whenever asked for more than they hold: no evaluation hangs and at most max_samples calls per repetition. Refuted for the time limit: the elapsed time is never measured, so a rejection sampler that stops accepting is called for ever, each time with the whole limit"
  },
  {
   "property": "C57",
   "status": "proved",
   "theorems": [
    "C57_rows",
    "C57_counts_grow",
    "C57_rejection_keeps",
    "C57_exact_counts",
    "C57_zero_samples",
    "C57_run_rows"
   ],
   "note": "for a non-negative time limit (with a negative one the loop stops after the first call); max_samples = 0 is proved to raise ZeroDivisionError; the rejection sampler is an instance of a method that keeps its samples"
  },
  {
   "property": "C58",
   "status": "partial",
   "theorems": [
    "C58_table_partial",
    "C58_wide_ness_refuted",
    "C58_ness_metric_refuted",
    "C58_repeated_metric_refuted",
    "C58_repeated_value_refuted",
    "C58_spaced_name_refuted"
   ],
   "note": "proved for repetition-free lists of the five implemented metrics, names that are single words and NESS values in [-999, 9999] or not finite; every field is proved to read back as the value it shows. Refuted: a NESS value of nine or more characters fuses with the last metric (reached by three rejection samples), NESS or an unknown metric in the list has a heading but no value, repeated metrics collapse, names with spaces"
  },
  {
   "property": "C59",
   "status": "partial",
   "theorems": [
    "C59_nested_reproducible",
    "C59_multi_nested_reproducible",
    "C59_population_reproducible",
    "C59_mpmc_reproducible",
    "C59_tree_reproducible",
    "C59_hidaisee_reproducible",
    "C59_history_forgotten_partial",
    "C59_rejection_reproducible",
    "C59_mh_refuted"
   ],
   "note": "proved for every sampler whose reset does not depend on the object's state, with instances for rejection, nested, multi-nested, deterministic-mixture and layered AIS, M-PMC, tree pyramid and HiDaisee objects in any two states; refuted for Metropolis-Hastings, whose reset keeps the chain position"
  },
  {
   "property": "C60",
   "status": "proved",
   "theorems": [
    "C60_hms_reading",
    "C60_hms_unique"
   ],
   "note": ""
  },
  {
   "property": "C61",
   "status": "proved",
   "theorems": [
    "C61_grid"
   ],
   "note": "row order follows numpy meshgrid (xy indexing) and is part of the model"
  },
  {
   "property": "C62",
   "status": "partial",
   "theorems": [
    "C62_random_gmm_partial",
    "C62_default_sigma_refuted",
    "C62_default_sigma_2d_refuted",
    "C62_room_refuted",
    "C62_eggbox"
   ],
   "note": "refuted: the default deviations have three entries (wrong dimension in 1-D, ValueError in 2-D) and a space narrower than ten deviations puts means outside; proved for deviations of the right dimension with room, and for the egg box target"
  },
  {
   "property": "C63",
   "status": "partial",
   "theorems": [
    "C63_reads_in_order",
    "C63_clear_in_order",
    "C63_clear_newest",
    "C63_never_blocks",
    "C63_call_returns",
    "C63_keep_last_refuted",
    "C63_keep_last_loses_refuted",
    "C63_keep_last_partial",
    "C63_keep_newest_partial"
   ],
   "note": "refuted for keep_last=True (a line queued in the window before the put-back is overtaken or lost); order, newest, never-blocking and bounded return proved over all interleavings otherwise"
  },
  {
   "property": "C64",
   "status": "partial",
   "theorems": [
    "C64_mh_reset_refuted",
    "C64_rejection_reset",
    "C64_mh_reset_partial",
    "C64_nested_reset",
    "C64_multi_nested_reset",
    "C64_population_reset",
    "C64_mpmc_reset",
    "C64_tree_reset",
    "C64_hidaisee_reset"
   ],
   "note": "Reset is modelled as the assignments of the code on the old object (base class, then subclass), separately from construction. Proved for rejection, nested, multi-nested, DM-AIS, LAIS, M-PMC, tree pyramid and HiDaisee: nothing of the history is left and every later history is one of a new object. False for Metropolis-Hastings (C64_mh_reset_refuted): reset keeps the chain position; C64_mh_reset_partial says nothing else survives."
  },
  {
   "property": "C65",
   "status": "proved",
   "theorems": [
    "C65_kde_rejection",
    "C65_kde_mh",
    "C65_kde_present_rejection",
    "C65_kde_present_mh",
    "C65_kde_weights"
   ],
   "note": "rejection and Metropolis-Hastings histories, including prob/log_prob/sample calls that build the model lazily"
  },
  {
   "property": "C66",
   "status": "proved",
   "theorems": [
    "C66_mh_request"
   ],
   "note": ""
  },
  {
   "property": "C67",
   "status": "partial",
   "theorems": [
    "C67_ness_finite_refuted",
    "C67_ness_at_most_one_refuted",
    "C67_ness_positive_refuted",
    "C67_ness_invariance_partial",
    "C67_ness_law_partial",
    "C67_ness_shift_refuted"
   ],
   "note": "refuted: can be infinite (samples 0,1,2), above one, negative, and changes when one coordinate is shifted; proved: the exact value from the autocorrelations and the truncation lag for every sequence with two different entries, and invariance under shifting and rescaling all coordinates alike"
  },
  {
   "property": "C68",
   "status": "partial",
   "theorems": [
    "C68_nested_NESS_partial",
    "C68_nested_NESS_refuted"
   ],
   "note": "refuted: a zero weight gives NaN; proved for positive weights"
  },
  {
   "property": "C69",
   "status": "proved",
   "theorems": [
    "C69_nested_effort"
   ],
   "note": ""
  },
  {
   "property": "C70",
   "status": "proved",
   "theorems": [
    "C70_lais_run",
    "C70_walk_support",
    "C70_lais_request"
   ],
   "note": ""
  },
  {
   "property": "C71",
   "status": "partial",
   "theorems": [
    "C71_mpmc_request",
    "C71_mpmc_effort",
    "C71_mpmc_raises_refuted",
    "C71_mpmc_single_sample",
    "C71_mpmc_coincident"
   ],
   "note": "refuted: one sample per batch, or any batch of coincident samples, raises AssertionError (singular covariance) with the work counted and the batch dropped; request and counters proved for every history. After a batch that misses the target the loop is modelled as not returning"
  },
  {
   "property": "C72",
   "status": "partial",
   "theorems": [
    "C72_delivers_partial",
    "C72_zero_refuted",
    "C72_zero_runs"
   ],
   "note": "proved for an ESS target above 1 and n_min at most 1 (every history, target, tape and clock). Refuted: with an ESS target of at most 1, samples of weight zero are not counted, so that a target all draws miss is sampled until the time is over without getting any sample"
  },
  {
   "property": "C73",
   "status": "partial",
   "theorems": [
    "C73_few_leaves",
    "C73_never_returns",
    "C73_next_raises",
    "C73_request_refuted"
   ],
   "note": "false of the code because find restarts from the root: in every history the tree has 1 or 2^d leaves, a call for more than 2^d samples never returns (unless its timeout is over), and a call that needs more samples after the root was expanded raises in its first turn (C73_request_refuted: in time, a second call that asks for three samples in one dimension raises and leaves fewer than three)"
  },
  {
   "property": "C74",
   "status": "proved",
   "theorems": [
    "C74_greedy"
   ],
   "note": ""
  },
  {
   "property": "C75",
   "status": "partial",
   "theorems": [
    "C75_first_call_partial",
    "C75_second_call_refuted"
   ],
   "note": "proved for the first call of an object (ESS target above 1, n_min at most 1, no resampling). Refuted: the next call mixes the already normalised weights with raw new ones"
  },
  {
   "property": "C76",
   "status": "partial",
   "theorems": [
    "C76_density_partial",
    "C76_zero_weights",
    "C76_total_refuted",
    "C76_initial_density"
   ],
   "note": "proved when some returned weight is positive; refuted when all weights are zero (proved: the density is then zero everywhere)"
  },
  {
   "property": "C77",
   "status": "proved",
   "theorems": [
    "C77_counters"
   ],
   "note": ""
  },
  {
   "property": "C78",
   "status": "partial",
   "theorems": [
    "C78_gmm_density_partial",
    "C78_default_weights_partial",
    "C78_negative_variances_refuted"
   ],
   "note": "density, log density, positivity and mass proved for positive variances, for given and for default weights; refuted: the constructor only looks at the sign of the determinant, so an even number of negative variances is accepted and the density grows without bound away from the mean"
  },
  {
   "property": "C79",
   "status": "partial",
   "theorems": [
    "C79_delta_density_partial",
    "C79_samples",
    "C79_elsewhere_refuted",
    "C79_integral_refuted"
   ],
   "note": "proved with the tolerance of isclose (1e-8 + 1e-5 |x|); refuted: points other than the centre within that tolerance get density +inf, and integral never answers (NameError, or AssertionError for reversed bounds)"
  },
  {
   "property": "C80",
   "status": "proved",
   "theorems": [
    "C80_banana_values",
    "C80_mirror",
    "C80_mass",
    "C80_shapes"
   ],
   "note": "the mass is not one; the class only promises proportionality. An array without rows is accepted whatever its width"
  },
  {
   "property": "C81",
   "status": "partial",
   "theorems": [
    "C81_samples",
    "C81_unconditioned",
    "C81_density_partial",
    "C81_density_refuted",
    "C81_width_refuted"
   ],
   "note": "samples and the conditioning protocol proved for all histories; the density is proved only for functions that return their argument; refuted otherwise: the code subtracts the conditioning value, not the function value (with f = doubling no sample has positive density), and with fewer outputs than inputs every density query raises ValueError"
  },
  {
   "property": "C82",
   "status": "proved",
   "theorems": [
    "C82_first_event",
    "C82_ends",
    "C82_ready"
   ],
   "note": "a timeout that is not positive raises although the distribution is ready. GenericNoisyFunction overrides the method and returns None at once"
  },
  {
   "property": "C83",
   "status": "proved",
   "theorems": [
    "C83_aligned",
    "C83_methods",
    "C83_run"
   ],
   "note": "entries are records of optional keys and constructor outcomes; YAML parsing and the evaluation itself (C56-C59) are outside"
  },
  {
   "property": "C84",
   "status": "partial",
   "theorems": [
    "C84_box_near_partial",
    "C84_box_exact_partial",
    "C84_box_refuted"
   ],
   "note": "refuted: the bounds travel as text with eight digits (support [0, 1 + 2^-10] gives a smaller box, however ties are broken); proved: agreement up to half a unit of the eighth digit, exact for bounds with at most eight digits after the point; arrays of more than 1000 entries (printed with dots) are outside"
  },
  {
   "property": "C85",
   "status": "partial",
   "theorems": [
    "C85_points_partial",
    "C85_own_rows_partial",
    "C85_height_partial",
    "C85_range_partial",
    "C85_band_partial",
    "C85_height_refuted",
    "C85_short_curve",
    "C85_missing_refuted",
    "C85_band_refuted",
    "C85_band_root_refuted"
   ],
   "note": "proved: the points of a curve, their order, independence of other rows, the height as mean of the averages at the last ten counts, its range, and the width of the band; refuted: the height is not the average at that count, a curve of fewer than ten counts is empty, the band ignores the repetitions and is the square root of a standard deviation"
  },
  {
   "property": "C86",
   "status": "partial",
   "theorems": [
    "C86_explores_partial",
    "C86_starved_refuted"
   ],
   "note": "proved while no call has failed since the last reset; refuted after a failed call: the next call numbers its turns from 0, a leaf's value becomes NaN and half of the space is never sampled again, whatever is called later, until reset"
  },
  {
   "property": "C87",
   "status": "proved",
   "theorems": [
    "C87_first_accepted",
    "C87_exact",
    "C87_waiting",
    "C87_low_envelope"
   ],
   "note": "the returned points are the first accepted ones of the stream of proposals; their law for proposals with finitely many values (cells of any fineness); C87_low_envelope: the bound on the scaling is needed"
  },
  {
   "property": "C88",
   "status": "partial",
   "theorems": [
    "C88_batch",
    "C88_lais_call",
    "C88_dm_call_partial",
    "C88_dm_call_refuted"
   ],
   "note": "proved for every turn of the loop of both samplers, for whole calls of layered AIS, and for whole calls of deterministic mixture AIS with a target that is positive everywhere; refuted for deterministic mixture AIS when the target vanishes somewhere: a batch without a sample in the support ends the call with an exception and the expected total is too small. Proposals on finitely many cells"
  },
  {
   "property": "C89",
   "status": "partial",
   "theorems": [
    "C89_density_bounds_partial",
    "C89_density_bounds_refuted"
   ],
   "note": "proved for every history when each box in use holds a returned sample; refuted otherwise: a split leaves an empty box whose reported density is 0 although the target is positive on it"
  },
  {
   "property": "C90",
   "status": "partial",
   "theorems": [
    "C90_evidence_partial",
    "C90_mean_weight_low",
    "C90_evidence_refuted"
   ],
   "note": "refuted: weights are target times volume of the box and not divided by the share of samples in it, so that the mean weight is below the stratified estimate on every execution with two boxes in use; what holds is that the mean weights of the boxes add up to a value between the Riemann sums"
  },
  {
   "property": "C91",
   "status": "partial",
   "theorems": [
    "C91_adaptation_partial",
    "C91_mean_step",
    "C91_adaptation_refuted"
   ],
   "note": "The full statement is false of the code: the covariance of a component is the unweighted sum of the scatter of the batch, so a proposal that already equals the target is replaced by a wider one and the fit falls (C91_adaptation_refuted, for any positive component density and the real normal log density). Proved: the fit never falls when no component gets worse on the weights it is responsible for (C91_adaptation_partial: mixture weights and responsibilities are those of expectation maximisation), and the new mean alone is never worse for a Gaussian component (C91_mean_step)."
  },
  {
   "property": "C92",
   "status": "proved",
   "theorems": [
    "C92_unbiased",
    "C92_mean_square",
    "C92_error_chance",
    "C92_true_integral"
   ],
   "note": "The law of the draws is the product of finite uniform laws with G equally likely outcomes per unit number, for every G (numpy has 2^53), so no idealised continuous draw is assumed; rounding of height * u is not modelled. C92_true_integral links the average over the grid to the real integral in one dimension."
  },
  {
   "property": "C93",
   "status": "partial",
   "theorems": [
    "C93_never_loads",
    "C93_gmm_partial",
    "C93_save_again",
    "C93_fixed_partial",
    "C93_parameters_lost",
    "C93_saved_target_refuted"
   ],
   "note": "False of the code: to_dict writes the type as distributions.<class>, and in the loader the name distributions is the submodule distributions/distributions.py, which has none of the classes, so loading ends in ValueError for every object (C93_never_loads, C93_saved_target_refuted). Proved with the class name alone as the type: a Gaussian mixture with finite weights comes back with the same density, dimension, support and evaluation parameters (C93_gmm_partial), the parameterless classes come back as they were (C93_fixed_partial). All other classes lose a required parameter (C93_parameters_lost), and a loaded mixture cannot be saved again since its rows are Python lists (C93_save_again)."
  },
  {
   "property": "C94",
   "status": "partial",
   "theorems": [
    "C94_kl_error_partial",
    "C94_js_error_partial",
    "C94_kl_integral_partial",
    "C94_js_integral_partial",
    "C94_outside_mass_refuted"
   ],
   "note": "Proved for densities with 0 < lo <= p, q <= hi on the evaluation points: explicit constants over the number of samples, for any finite set of equally likely points, and against the integrals on a segment for Lipschitz densities (C94_kl_integral_partial, C94_js_integral_partial). False when q has mass outside the support of p: the points come from the support of p only and q is rescaled there, so p uniform on [0,1] against q uniform on [0,2] is reported as 0 by both metrics for every sample, where the divergence is ln 2 (C94_outside_mass_refuted). Zeros of either density inside the support are the subject of C18 and C20."
  },
  {
   "property": "C95",
   "status": "partial",
   "theorems": [
    "C95_lais_integral",
    "C95_lais_estimate",
    "C95_dm_integral_partial",
    "C95_dm_estimate_partial",
    "C95_dm_estimate_refuted"
   ],
   "note": "Proved for layered AIS with any non-negative target (C95_lais_integral, C95_lais_estimate) and for deterministic mixture AIS with targets positive everywhere (C95_dm_integral_partial, C95_dm_estimate_partial), after any history of operations. False of deterministic mixture AIS when the target vanishes somewhere: a first batch outside the support makes the resampling raise, so the chance of having no estimate does not decrease with n (C95_dm_estimate_refuted, chance at least 3/16 for every n)."
  },
  {
   "property": "C96",
   "status": "partial",
   "theorems": [
    "C96_sample_law_partial",
    "C96_equal_rates_partial",
    "C96_target_refuted"
   ],
   "note": "False: rejected attempts are repeated, so the chain only visits accepted points. Proved instead: geometric convergence from any start to the law with masses target times acceptance rate (C96_sample_law_partial), which is the target when the acceptance rate is the same everywhere (C96_equal_rates_partial). Refuted for the target: masses 1 and 3, limit 1/3 instead of 1/4 however long the burn-in (C96_target_refuted)."
  },
  {
   "property": "C97",
   "status": "partial",
   "theorems": [
    "C97_centres_law_partial",
    "C97_target_kept_partial",
    "C97_border_refuted"
   ],
   "note": "False near the border of the box: displaced points are clipped to the border and accepted by the ratio of the target alone, so the border is visited too often (C97_border_refuted: uniform target, the middle point has probability 1/5 instead of 1/3 after any number of turns). Proved when displacements from the support stay inside the box: the target is kept exactly (C97_target_kept_partial) and approached geometrically from any start (C97_centres_law_partial)."
  },
  {
   "property": "C98",
   "status": "partial",
   "theorems": [
    "C98_rejection",
    "C98_population",
    "C98_mpmc",
    "C98_mh_partial",
    "C98_mh_refuted",
    "C98_nested_refuted",
    "C98_tree"
   ],
   "note": "Proved for rejection sampling, DM-AIS, layered AIS, M-PMC and the tree pyramid. False of Metropolis-Hastings, whose burn-in ignores the limit (C98_mh_refuted; between samples the limit holds: C98_mh_partial), and of nested sampling, where the limit restarts with every replacement (C98_nested_refuted). HiDaisee never reads its timeout argument."
  },
  {
   "property": "C99",
   "status": "partial",
   "theorems": [
    "C99_isolated",
    "C99_answer",
    "C99_model_draws_partial",
    "C99_sample_fails",
    "C99_model_draws_refuted",
    "C99_sample_refuted"
   ],
   "note": "The density queries are as stated (C99_isolated, C99_answer). A model draws at its latest conditioning as long as no target built on it is used (C99_model_draws_partial); otherwise the query has moved it (C99_model_draws_refuted). sample(n) always raises TypeError over GenericNoisyFunction (C99_sample_fails, C99_sample_refuted), and over GenericNuisanceGenModel it can return n^3 rows (C99_sample_refuted)."
  },
  {
   "property": "C100",
   "status": "partial",
   "theorems": [
    "C100_picture_partial",
    "C100_frames_partial",
    "C100_axis_remains",
    "C100_axis_refuted",
    "C100_replacing_fails",
    "C100_point_refuted"
   ],
   "note": "Proved when the replaced items are functions or axes with one tick (C100_picture_partial, C100_frames_partial). A replaced axis leaves all its tick lines but one, since draw_axis does not list them (C100_axis_remains, C100_axis_refuted). A replaced point is a TypeError since ax.scatter returns one artist and not a list, and an axis without ticks a NotImplementedError since its line is listed twice (C100_replacing_fails, C100_point_refuted)."
  },
  {
   "property": "C101",
   "status": "partial",
   "theorems": [
    "C101_ticks_partial",
    "C101_default_ticks",
    "C101_labels_partial",
    "C101_labels_refuted",
    "C101_ticks_refuted"
   ],
   "note": "Proved for axes whose position attribute is the origin (C101_ticks_partial, C101_default_ticks). The position moves the axis line but not the ticks (C101_ticks_refuted). On axes below the diagonal, such as the default horizontal one, the label of the value 0 stands on the other side than all others (C101_labels_refuted; C101_labels_partial for the rest)."
  },
  {
   "property": "C102",
   "status": "partial",
   "theorems": [
    "C102_fit",
    "C102_shift",
    "C102_unit_partial",
    "C102_line_partial",
    "C102_volume_refuted",
    "C102_spread_refuted",
    "C102_coinciding_refuted"
   ],
   "note": "Fitting and shifts are proved (C102_fit, C102_shift), and the covariance in two and more dimensions (C102_unit_partial). The volume is computed from the determinant of the covariance instead of its square root and changes by c^(2d) (C102_volume_refuted). In one dimension the standard deviation is used as the variance: the volume is right but the draws are not (C102_line_partial, C102_spread_refuted). Points without spread get an ellipsoid of fixed size (C102_coinciding_refuted)."
  },
  {
   "property": "C103",
   "status": "partial",
   "theorems": [
    "C103_law",
    "C103_replacement_partial",
    "C103_prior_refuted"
   ],
   "note": "The exact law for every displacement law is C103_law (the first candidate is clipped to the box, later ones are not); when no displacement leaves the box it is the restricted proposal (C103_replacement_partial). It is not the restricted prior: the new point stays near a live point (C103_prior_refuted)."
  },
  {
   "property": "C104",
   "status": "partial",
   "theorems": [
    "C104_entries",
    "C104_rebuild",
    "C104_edits_partial",
    "C104_fresh_partial",
    "C104_uniform_level",
    "C104_uniform_refuted",
    "C104_support_refuted",
    "C104_failed_refuted",
    "C104_name_refuted"
   ],
   "note": "False for the default support of the normal and exponential classes, which stays in the dictionary (C104_support_refuted), even after a call that failed (C104_failed_refuted), for in-place edits of the radius of a uniform object, whose density then has mass two (C104_uniform_refuted, exact level in C104_uniform_level) and for sampler names (C104_name_refuted). The rest is proved: C104_entries, C104_rebuild, C104_edits_partial, C104_fresh_partial."
  },
  {
   "property": "C105",
   "status": "proved",
   "theorems": [
    "C105_error",
    "C105_consistent",
    "C105_refines"
   ],
   "note": "C105_refines: even refinement. C105_error: explicit error of a self-normalised weighted mean after one call, against the integral fixed by Darboux sums over all partitions into cubes. C105_consistent: convergence for every sequence of draws. Hypotheses: target bounded away from zero on the cube of the root, draws inside the leaves."
  },
  {
   "property": "C106",
   "status": "partial",
   "theorems": [
    "C106_nested",
    "C106_multi_nested",
    "C106_metropolis",
    "C106_rejection",
    "C106_rejection_refuted",
    "C106_population",
    "C106_mpmc",
    "C106_tree_partial",
    "C106_tree_refuted",
    "C106_hidaisee_partial",
    "C106_hidaisee_refuted"
   ],
   "note": "Proved for Metropolis-Hastings, nested, multi-nested, DM-AIS, LAIS, M-PMC, and for rejection sampling with its scaling scaled along. C106_tree_partial: leaf resampling, simple flow, one sample per leaf, ess target above one. C106_hidaisee_partial: boost scaled along (in particular no boost); the weights are then multiplied by the constant. Refuted with witnesses: rejection with fixed scaling, tree sampler with ess target 9/10, HiDaisee with a fixed positive boost."
  },
  {
   "property": "C107",
   "status": "partial",
   "theorems": [
    "C107_population",
    "C107_mpmc",
    "C107_metropolis",
    "C107_nested",
    "C107_hidaisee_partial",
    "C107_tree_partial",
    "C107_tree_refuted",
    "C107_mixture_refuted",
    "C107_rejection_refuted",
    "C107_multi_nested_refuted"
   ],
   "note": "Proved for DM-AIS, LAIS, M-PMC, Metropolis-Hastings and nested sampling (evaluation counter larger by the number of live points). C107_hidaisee_partial: no failed call before. C107_tree_partial: simple flow with leaf resampling or ess target at most one, the second call taking at least one turn. Refuted with witnesses: tree sampler with ess target 2 and no resampling, mixture flow, multi-nested sampling, counters of rejection sampling."
  },
  {
   "property": "C108",
   "status": "proved",
   "theorems": [
    "C108_hidaisee",
    "C108_reported",
    "C108_joint",
    "C108_fair_laws",
    "C108_dm",
    "C108_dm_mean",
    "C108_tree"
   ],
   "note": "The selector is numpy's chain of Bernoulli draws; its uniform numbers have any finite law that decides the needed ratios like uniform numbers (C108_fair_laws: one exists for every mixture). Component laws are finite. C108_tree: simple flow, uniform kernel, positive targets, call that returned. C108_hidaisee: HiDaisee after a call that returned, with a sample of positive weight."
  },
  {
   "property": "C109",
   "status": "partial",
   "theorems": [
    "C109_hidaisee",
    "C109_nested",
    "C109_multi_nested_partial",
    "C109_multi_nested_refuted",
    "C109_metropolis",
    "C109_rejection",
    "C109_population",
    "C109_mpmc_partial",
    "C109_mpmc_refuted",
    "C109_tree",
    "C109_tree_refuted"
   ],
   "note": "Refuted for M-PMC (failsafe constant 10), multi-nested sampling (minimal distance 0.2) and tree pyramids with the normal kernel (covariance is a quarter of the radius) under a change of unit; proved there for a change of origin, and for the other samplers and the uniform kernel for both, with HiDaisee's reported density (C109_hidaisee)."
  },
  {
   "property": "C110",
   "status": "partial",
   "theorems": [
    "C110_keeps",
    "C110_nested_partial",
    "C110_nested_refuted",
    "C110_own",
    "C110_own_refuted",
    "C110_new_rejection_partial",
    "C110_new_population_partial",
    "C110_new_refuted"
   ],
   "note": "First part proved except for nested sampling (refuted for one sample; proved for arrays of another length). Second part proved for the tree samplers and HiDaisee, refuted for the others; for rejection, LAIS and M-PMC the rows added later are proved unaffected."
  },
  {
   "property": "C111",
   "status": "partial",
   "theorems": [
    "C111_divergences",
    "C111_statistics",
    "C111_autocorrelation_refuted",
    "C111_mixture"
   ],
   "note": "Refuted for the effective sample size from autocorrelations, which depends on the order by its nature; proved for the other quantities. Rounding is not modelled."
  },
  {
   "property": "C112",
   "status": "partial",
   "theorems": [
    "C112_support_partial",
    "C112_reach",
    "C112_support_refuted",
    "C112_cut_off",
    "C112_law_partial",
    "C112_law_refuted"
   ],
   "note": "False of the shipped settings: the proposal box is centred at the origin, so a support that is not symmetric is not covered (C112_support_refuted; C112_support_partial says exactly when it is), and with scaling 1 the accepted points follow the target cut off at the proposal density (C112_cut_off), which is the target only if it has one value wherever it is positive (C112_law_partial, C112_law_refuted)."
  },
  {
   "property": "C113",
   "status": "proved",
   "theorems": [
    "C113_mpmc",
    "C113_nested",
    "C113_multi_nested",
    "C113_metropolis",
    "C113_rejection",
    "C113_population",
    "C113_hidaisee"
   ],
   "note": "In multi-nested sampling the clusters, volumes and distances of the live points are taken to be the same in both orders. The tree pyramid samplers, which number the children of a node by axis, are not covered."
  },
  {
   "property": "C114",
   "status": "partial",
   "theorems": [
    "C114_debug_partial",
    "C114_debug_refuted",
    "C114_contour",
    "C114_blank",
    "C114_curve",
    "C114_draw_partial",
    "C114_draw_blank",
    "C114_draw_refuted",
    "C114_components",
    "C114_three_axes_refuted"
   ],
   "note": "C114_draw_refuted: a support narrower than resolution/1.2 gives no curve, without an error (C114_draw_blank), so CDistribution.draw shows the support only when it is wide enough (C114_draw_partial). C114_debug_refuted: the debug picture of the benchmark takes the density for its logarithm and shows exp(density); the order of heights is right (C114_debug_partial). C114_three_axes_refuted: with three axes the table made with the shape of the grid is not in the order of the axes, so sums over axes (marginalize_axes) would be wrong; for two axes the order is right (C114_contour). Colours, labels and matplotlib itself are not modelled."
  },
  {
   "property": "C115",
   "status": "partial",
   "theorems": [
    "C115_tree",
    "C115_hidaisee",
    "C115_mixture_partial",
    "C115_fresh_refuted",
    "C115_two_axes_refuted",
    "C115_chain_partial",
    "C115_chain_refuted"
   ],
   "note": "C115_two_axes_refuted: in two dimensions draw of DM-AIS, layered AIS and M-PMC always raises AttributeError (the proposals have no attribute mean). C115_fresh_refuted and C115_chain_refuted: before the first sample drawing raises. C115_mixture_partial, C115_chain_partial: afterwards the pictures are right. C115_tree and C115_hidaisee hold without restriction. Colours, markers of the trajectory and the three-dimensional pictures are not modelled."
  },
  {
   "property": "C116",
   "status": "partial",
   "theorems": [
    "C116_density_partial",
    "C116_density_refuted",
    "C116_neighbour_partial",
    "C116_import_refuted",
    "C116_neighbour_refuted",
    "C116_rows_partial",
    "C116_rows_refuted",
    "C116_single_refuted",
    "C116_kernel_refuted"
   ],
   "note": "False of the code. C116_import_refuted: the constructor of CNearestNeighbor uses a module variable that an import does not define, so it always raises. C116_kernel_refuted: the constructor of CKernelDensity always raises. Where the variable happens to exist and holds the samples given, log_prob is the weight of a nearest sample (C116_neighbour_partial); with other contents it may be the weight of another one (C116_neighbour_refuted). Moreover prob is its exponential and nowhere below one (C116_density_partial, C116_density_refuted), and sample(n) takes the counts of the draw for indices: it returns as many rows as there are weights (C116_rows_partial, C116_rows_refuted) and refuses every request when there is one sample (C116_single_refuted)."
  },
  {
   "property": "C117",
   "status": "partial",
   "theorems": [
    "C117_refines_partial",
    "C117_error_partial",
    "C117_consistent_partial",
    "C117_starved_refuted",
    "C117_second_call_refuted"
   ],
   "note": "False of the code. C117_starved_refuted: with a target that vanishes on part of the box, there is a state after one call from which on exactly one returned sample ever lies in half of the box, whatever the later calls and draws, although a third of the target's mass is there. C117_second_call_refuted: all hypotheses of the error bound are met but the call is the second one; the bound fails, because the leaves of the first call keep normalised weights. Proved: after every history on targets with values in [m, M], m > 0, the leaves shrink as their number grows (C117_refines_partial), and the estimates of one call on a new or reset sampler obey the bound and converge for all draws (C117_error_partial, C117_consistent_partial)."
  },
  {
   "property": "C118",
   "status": "partial",
   "theorems": [
    "C118_chain_never_rejects",
    "C118_layers_walk",
    "C118_rejection_takes_all",
    "C118_nested_first_try",
    "C118_live_points_refuted"
   ],
   "note": "False of the code for the last sentence. C118_live_points_refuted: the first of equal minima is always taken, so after any number of samples on constant targets only live point 0 has ever been replaced. Proved: Metropolis-Hastings never rejects after and during any history (C118_chain_never_rejects), the means of layered AIS follow all displacements (C118_layers_walk), rejection with an exact envelope takes everything (C118_rejection_takes_all), and nested sampling accepts the first candidate every time (C118_nested_first_try)."
  },
  {
   "property": "C119",
   "status": "partial",
   "theorems": [
    "C119_saved_partial",
    "C119_resized_refuted",
    "C119_shown_partial",
    "C119_shown_refuted",
    "C119_empty_refuted"
   ],
   "note": "False of the code in three ways. C119_shown_refuted: show exchanges width and height for every figure that is not square; C119_resized_refuted: frames of another size than the last one are missing from the saved file without an error; C119_empty_refuted: an empty recording raises IndexError. Proved: a recording of figures of one size is saved completely, in order, with sizes and colours (C119_saved_partial); square figures are shown as drawn (C119_shown_partial)."
  },
  {
   "property": "C120",
   "status": "partial",
   "theorems": [
    "C120_four_arguments_partial",
    "C120_documented_use_refuted",
    "C120_results_kept_partial",
    "C120_results_kept_refuted",
    "C120_plots_partial",
    "C120_plots_of_arguments_partial",
    "C120_plots_refuted"
   ],
   "note": "False of the code in three ways. C120_documented_use_refuted: the three arguments of the README are all ignored, the shipped benchmark is run and replaces its former results; C120_results_kept_refuted: with a methods file that cannot be read the former results are already erased; C120_plots_refuted: the plots program reads results.txt of the working directory, so after a default run it fails anywhere but in the results directory. Proved: with four arguments the named files are used, only the named file is written, with a header and the rows in order, also up to an exception (C120_four_arguments_partial); failures in the configuration or benchmark file leave the file system alone (C120_results_kept_partial); in the results directory the plots program shows what was written (C120_plots_partial; with three arguments C120_plots_of_arguments_partial)."
  },
  {
   "property": "C121",
   "status": "partial",
   "theorems": [
    "C121_same_density_partial",
    "C121_same_draws",
    "C121_nested_objects",
    "C121_unused_point_refuted"
   ],
   "note": "False of the code for infinite densities: C121_unused_point_refuted: a point mass without weight makes the density (not the log density) of every mixture NaN at its location. Proved for components whose log densities are finite or -inf: equal densities and log densities (C121_same_density_partial) and equal joint laws of the draws (C121_same_draws) for all descriptions linked by any chain of rewritings; a mixture object used as a component is covered (C121_nested_objects)."
  },
  {
   "property": "C122",
   "status": "partial",
   "theorems": [
    "C122_needed_parameters",
    "C122_dictionary_of_the_caller",
    "C122_documented_partial",
    "C122_documented_refuted",
    "C122_shipped_entries",
    "C122_readme_refuted",
    "C122_animations_refuted"
   ],
   "note": "False of the code: C122_documented_refuted: for Metropolis-Hastings, multi-nested, DM-AIS, the tree sampler and HiDaisee every dictionary with documented parameters only makes the constructor raise; C122_readme_refuted and C122_animations_refuted: KeyError from the README entry and from both animations. The importance samplers overwrite n_samples_kde in the caller's dictionary (C122_dictionary_of_the_caller, which also gives the frame). Proved: the exact set of needed entries of each method (C122_needed_parameters), the documented ones suffice for LAIS and M-PMC (C122_documented_partial), all entries of def_methods.yaml build in every box (C122_shipped_entries)."
  },
  {
   "property": "C123",
   "status": "partial",
   "theorems": [
    "C123_first_weight",
    "C123_settles_partial",
    "C123_converges_refuted"
   ],
   "note": "False of the code: the first shell gets the weight X[0] = 1 instead of 1 - exp(-1/N). C123_first_weight: the first sample keeps at least l/(l+b) of the weight in runs of every length (l the first, b the largest likelihood); C123_converges_refuted: on constant targets that is one half, so the estimate of a non-negative function never falls below half of its value at the first sample, with runs of every length on [0, 1] whose mean square is at least 1/2 instead of 1/3. Proved: estimates settle, with an explicit exponential rate (C123_settles_partial)."
  },
  {
   "property": "C124",
   "status": "partial",
   "theorems": [
    "C124_rejection",
    "C124_mh",
    "C124_nested_partial",
    "C124_multi_partial",
    "C124_nested_refuted"
   ],
   "note": "Holds of rejection sampling and Metropolis-Hastings (C124_rejection, C124_mh): the average over all choices of n_samples_kde indices is the estimate with the returned weights. False of nested sampling: _update_model ignores the weights, so the average model gives every sample the same weight (C124_nested_partial; C124_multi_partial: likewise multi-nested sampling); C124_nested_refuted: a run whose first sample has the weight 0 and whose second has the weight 1, while every kernel that tells them apart sees the plain mean of the two."
  },
  {
   "property": "C125",
   "status": "proved",
   "theorems": [
    "C125_nested_bounded",
    "C125_multi_bounded",
    "C125_falls"
   ],
   "note": "C125_nested_bounded, C125_multi_bounded: the bound in every reachable state; C125_falls: after n0(N, a, b, eps) samples the reported value is below eps. Asking for more samples than a few multiples of N does not make the estimate better; compare C123."
  },
  {
   "property": "C126",
   "status": "partial",
   "theorems": [
    "C126_mpmc",
    "C126_nested_later_partial",
    "C126_multi_partial",
    "C126_multi_refuted",
    "C126_mh_refuted",
    "C126_mh_partial",
    "C126_nested_refuted",
    "C126_nested_partial",
    "C126_population",
    "C126_rejection",
    "C126_hidaisee",
    "C126_tree_partial"
   ],
   "note": "false of Metropolis-Hastings and nested sampling when the clock cuts off a search (C126_mh_refuted, C126_nested_refuted: the last refused proposal becomes a sample); C126_mh_partial and C126_nested_partial: holds in every history in which no search is cut off, also from a start of zero density; C126_population: DM and layered sampling, without condition on the clock; C126_rejection: however a call ends; C126_hidaisee: one target throughout, after every call that returned; C126_tree_partial: the first call of the tree sampler without resampling. C126_mpmc: every turn of M-PMC, whose weights are NaN when the batch misses the support. C126_nested_later_partial and C126_multi_partial: from the second sample on in every history of nested and multi-nested sampling, with any clock; C126_multi_refuted: false of the first sample of multi-nested sampling, without any cut-off, when a cluster is smaller than the minimal radius."
  },
  {
   "property": "C127",
   "status": "partial",
   "theorems": [
    "C127_support_refuted",
    "C127_support_partial",
    "C127_uniform_support"
   ],
   "note": "false of the code: C127_support_refuted, the support [-20, 20] of the symmetric Pareto density leaves out more than a fifth of the mass (the mass is 1 - 1/sqrt(21)); C127_support_partial: the exact masses of the exponential, Maxwell and Laplace densities, all above 39/40 and below one; C127_uniform_support: one for the uniform density. Metrics and samplers only see the part on the support."
  },
  {
   "property": "C128",
   "status": "partial",
   "theorems": [
    "C128_rejection",
    "C128_dm",
    "C128_lais",
    "C128_nested",
    "C128_mh_refuted",
    "C128_mh_partial",
    "C128_mpmc",
    "C128_multi",
    "C128_hidaisee"
   ],
   "note": "false of Metropolis-Hastings: C128_mh_refuted, when the clock runs out during a step the refused point is returned with weight one; C128_mh_partial: without such cut-offs no history gives a sample and no call returns. C128_rejection: a fresh object never returns (it goes on while the clock allows); C128_dm: a call for more samples raises ValueError and adds nothing; C128_lais, C128_nested, C128_multi, C128_mpmc: all weights are NaN. C128_hidaisee: all weights and the reported density are zero. The tree sampler is in C72_zero_runs."
  },
  {
   "property": "C129",
   "status": "proved",
   "theorems": [
    "C129_population",
    "C129_mpmc",
    "C129_nested",
    "C129_more_samples",
    "C129_less_effort"
   ],
   "note": "C129_more_samples, C129_less_effort: rejection sampling (the number of points drawn in a turn depends on the samples held, so the two runs look at different points; the samples are not a prefix). C129_population, C129_mpmc: however the calls end. C129_nested: when the call for more samples returns; the time limit is the same in both calls, since it changes the searches."
  },
  {
   "property": "C130",
   "status": "proved",
   "theorems": [
    "C130_hidaisee",
    "C130_lais",
    "C130_mh",
    "C130_rejection",
    "C130_nested",
    "C130_multi",
    "C130_mpmc",
    "C130_dm"
   ],
   "note": "C130_rejection, C130_nested, C130_multi, C130_mh: however the call ends. C130_dm, C130_mpmc, C130_hidaisee: for calls that return, where the samples of the object are all the points evaluated (HiDaisee: also those of earlier calls, which a split evaluates again). C130_lais: in every history; the points of the walks of the proposal centres are not kept by the program, so the targets have to agree on the whole sampling space."
  }
 ]
}