{
 "claims": [
  {
   "property": "C01",
   "status": "proved",
   "theorems": [
    "C01_get_dk",
    "C01_ranked_truthful",
    "C01_fake_truthful",
    "C01_preference"
   ],
   "note": "values are rationals (finite floats); preference() encodes the stated choice"
  },
  {
   "property": "C02",
   "status": "proved",
   "theorems": [
    "C02_gen_pairs"
   ],
   "note": ""
  },
  {
   "property": "C03",
   "status": "proved",
   "theorems": [
    "C03_ranked_complete",
    "C03_ranked_acyclic",
    "C03_fake_complete"
   ],
   "note": ""
  },
  {
   "property": "C04",
   "status": "partial",
   "theorems": [
    "C04_ranking_refuted",
    "C04_ranking_built"
   ],
   "note": "refuted: generate_ranking_pairs has no return statement and yields None; the pairs it builds internally are characterised"
  },
  {
   "property": "C05",
   "status": "proved",
   "theorems": [
    "C05_pareto_exact"
   ],
   "note": ""
  },
  {
   "property": "C06",
   "status": "proved",
   "theorems": [
    "C06_pareto_cover",
    "C06_pareto_mask"
   ],
   "note": ""
  },
  {
   "property": "C07",
   "status": "proved",
   "theorems": [
    "C07_unique_sets"
   ],
   "note": "integer s; numpy choice without replacement is an arbitrary stream of draws"
  },
  {
   "property": "C08",
   "status": "partial",
   "theorems": [
    "C08_sampling_terminates_refuted",
    "C08_binom_counts",
    "C08_sampling_terminates_feasible"
   ],
   "note": "refuted: asking for more sets than exist never returns; proved: every feasible request ends under a fair source"
  },
  {
   "property": "C09",
   "status": "proved",
   "theorems": [
    "C09_kfold_partition",
    "C09_kfold_returns"
   ],
   "note": ""
  },
  {
   "property": "C10",
   "status": "proved",
   "theorems": [
    "C10_kfold_bounded",
    "C10_kfold_balanced"
   ],
   "note": ""
  },
  {
   "property": "C11",
   "status": "partial",
   "theorems": [
    "C11_kfold_nonempty_refuted",
    "C11_kfold_nonempty_without_pairs",
    "C11_kfold_nonempty_enough_points"
   ],
   "note": "refuted: 9 points, k=4, three stars leave the last fold empty; proved without pairs and when N > (k-1)*ceil(N/k)"
  },
  {
   "property": "C12",
   "status": "proved",
   "theorems": [
    "C12_get_y"
   ],
   "note": ""
  },
  {
   "property": "C18",
   "status": "proved",
   "theorems": [
    "C18_labels_in_range",
    "C18_pairs_in_range_all_calls"
   ],
   "note": ""
  },
  {
   "property": "C19",
   "status": "proved",
   "theorems": [
    "C19_add_appends",
    "C19_add_pairs",
    "C19_add_ordinals",
    "C19_add_ratings"
   ],
   "note": ""
  },
  {
   "property": "C20",
   "status": "proved",
   "theorems": [
    "C20_pareto_pairs_sound",
    "C20_pareto_pairs_cover"
   ],
   "note": ""
  },
  {
   "property": "C21",
   "status": "partial",
   "theorems": [
    "C21_pareto_order_refuted",
    "C21_pareto_order_partial"
   ],
   "note": "refuted: adding a dominated point after the dominating one records no pair; proved: every domination by a point of a later (or the same) batch is recorded and never lost"
  },
  {
   "property": "C22",
   "status": "proved",
   "theorems": [
    "C22_ratings_validated",
    "C22_ordinals_validated",
    "C22_stored_ratings_usable"
   ],
   "note": ""
  },
  {
   "property": "C23",
   "status": "partial",
   "theorems": [
    "C23_rejected_add_refuted",
    "C23_rejected_add_labels"
   ],
   "note": "refuted: rejected labels leave the new points stored; proved: nothing but the points changes"
  },
  {
   "property": "C24",
   "status": "proved",
   "theorems": [
    "C24_remove_keeps_pairs"
   ],
   "note": ""
  },
  {
   "property": "C25",
   "status": "partial",
   "theorems": [
    "C25_remove_keeps_ratings_refuted",
    "C25_remove_keeps_ratings_partial"
   ],
   "note": "refuted: ratings keep their old index while rows are deleted; proved: ratings of points below which nothing is removed stay attached"
  },
  {
   "property": "C26",
   "status": "partial",
   "theorems": [
    "C26_prior_points_refuted",
    "C26_later_refuted",
    "C26_prior_points_partial"
   ],
   "note": "refuted: an old point without pairs is dropped and the reported slice loses a prior point, and removing later points without pairs shortens the slice too; proved when every old point occurs in a pair"
  },
  {
   "property": "C27",
   "status": "proved",
   "theorems": [
    "C27_reset_is_fresh",
    "C27_reset_same_outcomes"
   ],
   "note": "hyper-parameters, the latent vector and the optimized flag are not part of the data store; they survive reset"
  },
  {
   "property": "C30",
   "status": "proved",
   "theorems": [
    "C30_predictions_fresh"
   ],
   "note": ""
  },
  {
   "property": "C74",
   "status": "partial",
   "theorems": [
    "C74_rejected_add_blocks_predictions_refuted",
    "C74_stale_after_remove_refuted",
    "C74_failed_search_blocks_predictions_refuted",
    "C74_unfitted_refuted"
   ],
   "note": "refuted in four ways; the positive result is C30"
  },
  {
   "property": "C51",
   "status": "proved",
   "theorems": [
    "C51_selection_is_good",
    "C51_informed",
    "C51_number",
    "C51_fails_only_without_enough_candidates",
    "C51_learners_answer",
    "C51_ucb_answers"
   ],
   "note": "preferred indices must be candidates (see C57); with always_select_best at least one point must be requested"
  },
  {
   "property": "C52",
   "status": "proved",
   "theorems": [
    "C52_preferred_first"
   ],
   "note": ""
  },
  {
   "property": "C53",
   "status": "proved",
   "theorems": [
    "C53_best_learner_sorted",
    "C53_worst_learner_sorted",
    "C53_ucb_learner_sorted",
    "C53_best_learner_sorted_in_blocks"
   ],
   "note": "UCB with a PreferenceLinear model draws new random variances per call and is not covered"
  },
  {
   "property": "C54",
   "status": "proved",
   "theorems": [
    "C54_best_candidate_first"
   ],
   "note": ""
  },
  {
   "property": "C55",
   "status": "partial",
   "theorems": [
    "C55_not_selected_refuted",
    "C55_not_selected_partial"
   ],
   "note": "refuted: fails with enough candidates when a not preferred one is proposed first; proved: good disjoint result whenever enough preferred candidates exist"
  },
  {
   "property": "C56",
   "status": "partial",
   "theorems": [
    "C56_count_refuted",
    "C56_exclusions_refuted",
    "C56_termination_refuted",
    "C56_pairs_partial"
   ],
   "note": "refuted: asking for one point returns two, exclusions and preference are ignored by pick_pair_from_metric, return_not_selected may not terminate; proved for n >= 2, two preferred candidates and a pair criterion that respects the offered set"
  },
  {
   "property": "C57",
   "status": "partial",
   "theorems": [
    "C57_preferred_set",
    "C57_indices_valid_partial",
    "C57_indices_valid_refuted"
   ],
   "note": "the interpretation is proved; refuted: a count above the number of candidates gives invalid indices"
  },
  {
   "property": "C58",
   "status": "proved",
   "theorems": [
    "C58_best_fresh_pair",
    "C58_all_selected_refuted"
   ],
   "note": "the refuted theorem shows that the hypothesis \"some candidate not selected before\" is needed"
  },
  {
   "property": "C62",
   "status": "proved",
   "theorems": [
    "C62_set_fixed",
    "C62_alternating"
   ],
   "note": ""
  },
  {
   "property": "C63",
   "status": "partial",
   "theorems": [
    "C63_rate_choose",
    "C63_mixed_comparison_partial",
    "C63_worse_pair_refuted",
    "C63_tie_refuted"
   ],
   "note": "RateChooseLearner is proved; refuted for MixedComparision: its tie test compares the unscaled pair score, so a worse pair can be returned and a real tie is not random; proved away from that tie test"
  },
  {
   "property": "C64",
   "status": "proved",
   "theorems": [
    "C64_probability_range",
    "C64_peak_decreasing",
    "C64_rating_iff_draw",
    "C64_monotone_refuted"
   ],
   "note": "the refuted theorem shows that monotonicity from the first call and negative decay rates are excluded for a reason"
  },
  {
   "property": "C65",
   "status": "proved",
   "theorems": [
    "C65_mode_changes",
    "C65_mode_final",
    "C65_evaluation",
    "C65_draw",
    "C65_even"
   ],
   "note": ""
  },
  {
   "property": "C66",
   "status": "partial",
   "theorems": [
    "C66_first_calls_refuted",
    "C66_stale_fit_refuted",
    "C66_data_lost_refuted",
    "C66_alignment_partial",
    "C66_answers_partial"
   ],
   "note": "refuted: the first calls always raise, the model is left with a fit of the ratings only, a failing fit loses the ratings; proved: later calls answer with the better aligned type and keep the training data"
  },
  {
   "property": "C75",
   "status": "proved",
   "theorems": [
    "C75_equal_checking",
    "C75_pairs_only"
   ],
   "note": ""
  },
  {
   "property": "C13",
   "status": "proved",
   "theorems": [
    "C13_normalize"
   ],
   "note": ""
  },
  {
   "property": "C14",
   "status": "proved",
   "theorems": [
    "C14_choice_distribution",
    "C14_shift_invariant",
    "C14_ranks",
    "C14_batch_rows"
   ],
   "note": ""
  },
  {
   "property": "C15",
   "status": "proved",
   "theorems": [
    "C15_sample_interval",
    "C15_samples"
   ],
   "note": ""
  },
  {
   "property": "C16",
   "status": "proved",
   "theorems": [
    "C16_metropolis",
    "C16_length"
   ],
   "note": ""
  },
  {
   "property": "C17",
   "status": "proved",
   "theorems": [
    "C17_log_pdf",
    "C17_derivative",
    "C17_negative",
    "C17_clipped_derivative_refuted"
   ],
   "note": "the refuted theorem shows that the derivative does not belong to the clipped log-density below the clipping point, so the hypothesis is needed"
  },
  {
   "property": "C31",
   "status": "proved",
   "theorems": [
    "C31_symmetric",
    "C31_cov_transpose"
   ],
   "note": ""
  },
  {
   "property": "C32",
   "status": "partial",
   "theorems": [
    "C32_cov_psd",
    "C32_call_psd",
    "C32_zeroed_call_refuted",
    "C32_zeroed_single_refuted"
   ],
   "note": "covariance matrices of all kernel expressions are positive semidefinite (zeroed kernels: for at least two points); refuted for the zeroed kernel evaluated point by point when sigma > 1 and for its covariance matrix of the single zero point with noise"
  },
  {
   "property": "C33",
   "status": "partial",
   "theorems": [
    "C33_periodic_psd_refuted",
    "C33_periodic_1d_psd"
   ],
   "note": "refuted: four points in the plane give an indefinite matrix; true in one dimension"
  },
  {
   "property": "C34",
   "status": "partial",
   "theorems": [
    "C34_entries_partial",
    "C34_zeroed_entries",
    "C34_noise_refuted",
    "C34_zeroed_refuted"
   ],
   "note": "refuted: noise is added on the diagonal whenever the sizes and the first points agree; the covariance of the zeroed kernel divides by sigma^2, its call does not"
  },
  {
   "property": "C35",
   "status": "partial",
   "theorems": [
    "C35_pinned",
    "C35_default",
    "C35_call_refuted",
    "C35_single_refuted"
   ],
   "note": "true for covariance matrices of at least two points; refuted for the pointwise call and for a single query point"
  },
  {
   "property": "C36",
   "status": "partial",
   "theorems": [
    "C36_gradient_partial",
    "C36_gradient_total",
    "C36_rbf_length",
    "C36_rbf_length_refuted",
    "C36_periodic_length_refuted",
    "C36_periodic_period_refuted",
    "C36_zeroed_refuted",
    "C36_periodic_matrix_refuted",
    "C36_zeroed_matrix_refuted"
   ],
   "note": "true for output scales and all linear-kernel parameters in any expression; refuted for the RBF length scale (factor 2), the periodic length scale and period, and the zeroed kernel (raises)"
  },
  {
   "property": "C37",
   "status": "partial",
   "theorems": [
    "C37_sums",
    "C37_products_refuted",
    "C37_products_mixed"
   ],
   "note": "true for sums of RBF and linear kernels; refuted for every product"
  },
  {
   "property": "C76",
   "status": "proved",
   "theorems": [
    "C76_prior_gradient",
    "C76_parameters",
    "C76_prior_defined"
   ],
   "note": ""
  },
  {
   "property": "C28",
   "status": "partial",
   "theorems": [
    "C28_round_trip",
    "C28_read_back",
    "C28_too_short",
    "C28_negative_bias_refuted",
    "C28_two_ordinals_refuted",
    "C28_breakpoints_refuted"
   ],
   "note": "refuted: with ordinal labels a negative bias comes back positive, with two ordinals the bias is lost, and unequal breakpoints become equally spaced; the round trip is proved for every other vector, every label combination and every kernel expression"
  },
  {
   "property": "C29",
   "status": "partial",
   "theorems": [
    "C29_aligned_partial",
    "C29_pairs_only_refuted",
    "C29_ratings_only_refuted",
    "C29_ordinal_refuted",
    "C29_combination_refuted"
   ],
   "note": "refuted: samples of all probits are concatenated whether or not they have data, so kernel parameters receive the draw of another parameter; proved for the configurations in which the draws line up"
  },
  {
   "property": "C77",
   "status": "partial",
   "theorems": [
    "C77_prior_gradient",
    "C77_length",
    "C77_ordinal_refuted",
    "C77_precision_refuted",
    "C77_sigma"
   ],
   "note": "refuted with ordinal labels (two entries missing) and for the precision of the rating probit when sigma is optimised too; proved otherwise"
  },
  {
   "property": "C48",
   "status": "proved",
   "theorems": [
    "C48_binary_inside",
    "C48_binary_quadratic",
    "C48_iterative_best",
    "C48_grid",
    "C48_sentinel_refuted"
   ],
   "note": "the grid must not contain -1, which the code uses as a sentinel (the refuted theorem); the code calls it with bounds 0.01 and 1.5"
  },
  {
   "property": "C49",
   "status": "partial",
   "theorems": [
    "C49_concave_refuted",
    "C49_unimodal_partial"
   ],
   "note": "refuted: a tent function is missed by more than the final interval width for every iteration count from 4 on; proved: the error is at most a quarter of the width plus the final interval for strictly unimodal objectives"
  },
  {
   "property": "C50",
   "status": "proved",
   "theorems": [
    "C50_find_mode",
    "C50_linear_optimize"
   ],
   "note": ""
  },
  {
   "property": "C78",
   "status": "proved",
   "theorems": [
    "C78_hyper_search"
   ],
   "note": ""
  },
  {
   "property": "C79",
   "status": "partial",
   "theorems": [
    "C79_positive",
    "C79_symmetric",
    "C79_mode",
    "C79_constant_refuted",
    "C79_zero_refuted"
   ],
   "note": "refuted exactly for constant vectors (positive) and for the zero vector (otherwise), which become NaN; proved for all others"
  },
  {
   "property": "C80",
   "status": "partial",
   "theorems": [
    "C80_binary",
    "C80_iter",
    "C80_stationary",
    "C80_default_refuted",
    "C80_ascent_refuted"
   ],
   "note": "refuted: the default line search raises, and a concave objective can be lowered; proved: the step bounds and the fixed point"
  },
  {
   "property": "C38",
   "status": "proved",
   "theorems": [
    "C38_distribution",
    "C38_tail",
    "C38_clipped",
    "C38_mills"
   ],
   "note": ""
  },
  {
   "property": "C39",
   "status": "proved",
   "theorems": [
    "C39_agrees",
    "C39_grows",
    "C39_opposite",
    "C39_all_pairs",
    "C39_preference"
   ],
   "note": "the complement is exact when unclipped and within exp(-450) otherwise"
  },
  {
   "property": "C40",
   "status": "proved",
   "theorems": [
    "C40_gradient",
    "C40_hessian"
   ],
   "note": ""
  },
  {
   "property": "C41",
   "status": "partial",
   "theorems": [
    "C41_symmetric",
    "C41_row_sums",
    "C41_psd",
    "C41_newton",
    "C41_concave",
    "C41_clipped_refuted"
   ],
   "note": "refuted when an argument is below the clipping bound -30: a diagonal entry of W is then negative; proved for all pair lists otherwise"
  },
  {
   "property": "C42",
   "status": "partial",
   "theorems": [
    "C42_grad_hyper",
    "C42_W_dHyper",
    "C42_W_dF_partial",
    "C42_W_dF_refuted"
   ],
   "note": "refuted for calc_W_dF, which uses 2 r^2 phi instead of 2 r^3; the sigma derivatives are proved"
  },
  {
   "property": "C43",
   "status": "proved",
   "theorems": [
    "C43_set_hyper",
    "C43_ordered",
    "C43_distribution",
    "C43_shift",
    "C43_probability",
    "C43_zero_label",
    "C43_vector_refuted"
   ],
   "note": "explicit breakpoints given in decreasing order are accepted and give a negative likelihood (outside the stated scalar form)"
  },
  {
   "property": "C44",
   "status": "partial",
   "theorems": [
    "C44_gradient",
    "C44_log_likelihood",
    "C44_unlikely_partial",
    "C44_middle_partial",
    "C44_narrow_refuted",
    "C44_W_refuted"
   ],
   "note": "gradient proved for likely labels on distinct points; refuted for W; the gradient of unlikely labels is never exact (error bounds proved for the end labels and for middle labels), and inside of a narrow middle label the error has no bound"
  },
  {
   "property": "C45",
   "status": "partial",
   "theorems": [
    "C45_parameters",
    "C45_mean_range",
    "C45_mean",
    "C45_monotone",
    "C45_strict",
    "C45_same_value",
    "C45_repeated_refuted"
   ],
   "note": "refuted for repeated points, where log_likelihood keeps only the last rating; proved otherwise"
  },
  {
   "property": "C46",
   "status": "partial",
   "theorems": [
    "C46_ordinal_last",
    "C46_ordinal_refuted",
    "C46_rating_last",
    "C46_rating_refuted"
   ],
   "note": "refuted: only the last label of a point enters the gradient and W"
  },
  {
   "property": "C47",
   "status": "partial",
   "theorems": [
    "C47_scalar",
    "C47_vector_refuted"
   ],
   "note": "refuted for explicit breakpoint vectors; proved for the scalar form"
  },
  {
   "property": "C81",
   "status": "proved",
   "theorems": [
    "C81_value",
    "C81_gradient",
    "C81_hessian"
   ],
   "note": ""
  },
  {
   "property": "C82",
   "status": "partial",
   "theorems": [
    "C82_grad_hyper",
    "C82_W_dSigma",
    "C82_W_dv_refuted",
    "C82_W_dF_partial",
    "C82_W_dF_refuted"
   ],
   "note": "refuted for the v-derivative of W and for the sign of calc_W_dF; the other derivatives are proved"
  },
  {
   "property": "C70",
   "status": "proved",
   "theorems": [
    "C70_linear",
    "C70_linear_average",
    "C70_squared",
    "C70_logistic",
    "C70_logistic_range",
    "C70_weighted_max",
    "C70_weighted_min",
    "C70_min_log",
    "C70_squared_min_max"
   ],
   "note": "squared utilities on non-negative rewards"
  },
  {
   "property": "C71",
   "status": "partial",
   "theorems": [
    "C71_linear",
    "C71_squared",
    "C71_logistic",
    "C71_weighted_max",
    "C71_weighted_min",
    "C71_min_log",
    "C71_one_dimension",
    "C71_squared_min_max_refuted",
    "C71_list_refuted",
    "C71_mixture_refuted"
   ],
   "note": "refuted for FakeSquaredMinMax, FakeMixtureGaussian and python lists given to one-dimensional weighted maxima; proved for the other utilities"
  },
  {
   "property": "C72",
   "status": "proved",
   "theorems": [
    "C72_choice",
    "C72_matrix",
    "C72_pareto",
    "C72_get_pareto",
    "C72_strict_utilities",
    "C72_pairs",
    "C72_rating"
   ],
   "note": ""
  },
  {
   "property": "C73",
   "status": "partial",
   "theorems": [
    "C73_calibration",
    "C73_increasing",
    "C73_user",
    "C73_constant_refuted"
   ],
   "note": "refuted for constant utilities (division by zero); proved otherwise"
  },
  {
   "property": "C83",
   "status": "partial",
   "theorems": [
    "C83_linear",
    "C83_squared",
    "C83_logistic",
    "C83_weighted_refuted"
   ],
   "note": "refuted for the weighted maximum and minimum, which reduce over the options"
  },
  {
   "property": "C84",
   "status": "partial",
   "theorems": [
    "C84_always_fixed",
    "C84_learn_beta_refuted",
    "C84_new_user"
   ],
   "note": "refuted: k and b are overwritten by 4 and 0; proved: without noise a new user rates like the perfect user"
  },
  {
   "property": "C85",
   "status": "proved",
   "theorems": [
    "C85_sample_Qs",
    "C85_number"
   ],
   "note": ""
  },
  {
   "property": "C86",
   "status": "partial",
   "theorems": [
    "C86_tuning",
    "C86_failure_refuted"
   ],
   "note": "refuted: a failing sigma leaves the new beta in place; the error bound is proved"
  },
  {
   "property": "C87",
   "status": "partial",
   "theorems": [
    "C87_rows",
    "C87_rows_refuted"
   ],
   "note": "refuted for environments with different numbers of problems; proved for equal numbers"
  },
  {
   "property": "C88",
   "status": "proved",
   "theorems": [
    "C88_choice",
    "C88_rating",
    "C88_rating_ordered"
   ],
   "note": ""
  },
  {
   "property": "C89",
   "status": "partial",
   "theorems": [
    "C89_objective_partial",
    "C89_objective_refuted"
   ],
   "note": "refuted: nearly tied pairs are dropped depending on beta; proved when every pair counts"
  },
  {
   "property": "C90",
   "status": "proved",
   "theorems": [
    "C90_rating_objective"
   ],
   "note": ""
  },
  {
   "property": "C59",
   "status": "proved",
   "theorems": [
    "C59_mutual_information",
    "C59_range",
    "C59_zero",
    "C59_greedy"
   ],
   "note": ""
  },
  {
   "property": "C60",
   "status": "partial",
   "theorems": [
    "C60_default_refuted",
    "C60_method_999_partial"
   ],
   "note": "refuted: with the default method every candidate scores 0 and the first one is returned; the method 999 can discriminate"
  },
  {
   "property": "C91",
   "status": "partial",
   "theorems": [
    "C91_negative_refuted",
    "C91_nonnegative_partial"
   ],
   "note": "refuted for every method; proved when the answer model obeys the law of total probability"
  },
  {
   "property": "C92",
   "status": "partial",
   "theorems": [
    "C92_first_refuted"
   ],
   "note": "refuted: one-element queries score 0, the first index is always returned"
  },
  {
   "property": "C93",
   "status": "partial",
   "theorems": [
    "C93_repeated_refuted",
    "C93_in_range_partial"
   ],
   "note": "refuted: the draw is with replacement; membership proved"
  },
  {
   "property": "C61",
   "status": "proved",
   "theorems": [
    "C61_loop_is_vectorised",
    "C61_threshold",
    "C61_expected",
    "C61_greedy_expected",
    "C61_integrand",
    "C61_representative_answers"
   ],
   "note": "the score is also shown to be the expected alignment of two samples after hearing the answer"
  },
  {
   "property": "C94",
   "status": "proved",
   "theorems": [
    "C94_symmetric",
    "C94_shape"
   ],
   "note": ""
  },
  {
   "property": "C95",
   "status": "partial",
   "theorems": [
    "C95_self_partial",
    "C95_loglikelihood_refuted"
   ],
   "note": "refuted for the log-likelihood alignment; proved for rho, epic, spearman, one"
  },
  {
   "property": "C96",
   "status": "proved",
   "theorems": [
    "C96_range",
    "C96_loglikelihood"
   ],
   "note": ""
  },
  {
   "property": "C97",
   "status": "proved",
   "theorems": [
    "C97_rho",
    "C97_epic",
    "C97_epic_opposite",
    "C97_spearman",
    "C97_spearman_same_order",
    "C97_correlation"
   ],
   "note": "constant reward rows (nan in numpy) are excluded"
  },
  {
   "property": "C98",
   "status": "proved",
   "theorems": [
    "C98_pair",
    "C98_greedy",
    "C98_uninformative"
   ],
   "note": ""
  },
  {
   "property": "C99",
   "status": "proved",
   "theorems": [
    "C99_greedy_is_pair",
    "C99_answers"
   ],
   "note": ""
  },
  {
   "property": "C100",
   "status": "partial",
   "theorems": [
    "C100_pair_partial",
    "C100_greedy_partial",
    "C100_exact_gain",
    "C100_loglikelihood_refuted"
   ],
   "note": "refuted for the log-likelihood alignment; proved for rho, epic, spearman, one"
  },
  {
   "property": "C101",
   "status": "partial",
   "theorems": [
    "C101_first_refuted",
    "C101_best_partial"
   ],
   "note": "refuted: the empty partial query indexes a numpy scalar and raises IndexError"
  },
  {
   "property": "C102",
   "status": "partial",
   "theorems": [
    "C102_sampled",
    "C102_sampled_terminates",
    "C102_sampled_sizes",
    "C102_stable_sizes",
    "C102_unknown",
    "C102_stable_partial",
    "C102_stable_small_refuted"
   ],
   "note": "refuted: a stable file with fewer than ten points per alternative raises IndexError"
  },
  {
   "property": "C103",
   "status": "partial",
   "theorems": [
    "C103_same_partial",
    "C103_swap",
    "C103_missing_refuted"
   ],
   "note": "refuted: rho and loglikelihood are not implemented"
  },
  {
   "property": "C67",
   "status": "partial",
   "theorems": [
    "C67_store",
    "C67_prior_partial",
    "C67_prior_mean_refuted"
   ],
   "note": "refuted: predicting without data returns zeros and ignores mean_func (witness constant mean 1). The store part is proved for every history; without a mean function the untrained prediction is zero with the prior variances"
  },
  {
   "property": "C68",
   "status": "proved",
   "theorems": [
    "C68_interpolates",
    "C68_any_training_inputs",
    "C68_nonnegative"
   ],
   "note": "training inputs as a whole for every kernel; arbitrary subsets for kernels without noise"
  },
  {
   "property": "C69",
   "status": "partial",
   "theorems": [
    "C69_chunks_partial",
    "C69_noise_refuted"
   ],
   "note": "refuted: with kernel noise a chunk that has as many points as the training set and starts with the same point gets the noise added (witness 16 queries, one training point). Proved for kernels without noise or queries distinct from the training points"
  },
  {
   "property": "C104",
   "status": "proved",
   "theorems": [
    "C104_posterior",
    "C104_posterior_unique",
    "C104_order"
   ],
   "note": ""
  },
  {
   "property": "C105",
   "status": "proved",
   "theorems": [
    "C105_variance"
   ],
   "note": ""
  },
  {
   "property": "C106",
   "status": "proved",
   "theorems": [
    "C106_total",
    "C106_fails_iff",
    "C106_duplicates"
   ],
   "note": ""
  },
  {
   "property": "C107",
   "status": "proved",
   "theorems": [
    "C107_fitted_values",
    "C107_variance"
   ],
   "note": "the inversion routine is any routine that inverts invertible matrices"
  },
  {
   "property": "C108",
   "status": "partial",
   "theorems": [
    "C108_value",
    "C108_gradient",
    "C108_hessian_partial",
    "C108_hessian_refuted"
   ],
   "note": "refuted: the Hessian is wrong for ordinal labels (witness one label, every sigma, prior variance at least 7 sigma^2). Value and gradient are proved for all three kinds of labels, the Hessian for comparisons and ratings"
  },
  {
   "property": "C109",
   "status": "partial",
   "theorems": [
    "C109_ascent_partial",
    "C109_fixed_point",
    "C109_ordinal_refuted",
    "C109_rating_refuted",
    "C109_ratings_partial",
    "C109_ratings_fixed_point",
    "C109_outward"
   ],
   "note": "refuted: with one ordinal label and prior variance at least 7 sigma^2, and with the default rating probit, the lowest rating and a start of at least 3/4, the update moves away from the label and lowers the objective. Proved for comparisons, and with ratings wherever no rating is convex, in particular where no rating pulls a value towards zero"
  },
  {
   "property": "C110",
   "status": "proved",
   "theorems": [
    "C110_mode",
    "C110_unique"
   ],
   "note": ""
  },
  {
   "property": "C111",
   "status": "partial",
   "theorems": [
    "C111_gradient",
    "C111_hessian_partial",
    "C111_psd",
    "C111_ordinal_refuted"
   ],
   "note": "refuted: for ordinal labels W has the wrong sign (C44, C108); proved for comparisons and ratings"
  },
  {
   "property": "C112",
   "status": "partial",
   "theorems": [
    "C112_ascent_partial",
    "C112_single_refuted"
   ],
   "note": "refuted: with a single comparison of points with two or more features the Hessian is singular, the fallback of newton_update walks against the gradient, and the fitted weights agree less with the comparison than the start. Proved when the compared differences span all weights"
  },
  {
   "property": "C113",
   "status": "partial",
   "theorems": [
    "C113_best",
    "C113_unique",
    "C113_separable_refuted"
   ],
   "note": "refuted: comparisons that some weights satisfy strictly have no best weights. Stationary weights are proved to be the global maximum and unique when the differences span"
  },
  {
   "property": "C114",
   "status": "proved",
   "theorems": [
    "C114_untrained",
    "C114_dominance",
    "C114_agreement"
   ],
   "note": ""
  },
  {
   "property": "C115",
   "status": "proved",
   "theorems": [
    "C115_likelihood",
    "C115_objective"
   ],
   "note": ""
  },
  {
   "property": "C116",
   "status": "partial",
   "theorems": [
    "C116_likelihood_partial",
    "C116_objective_refuted"
   ],
   "note": "refuted: for a linear kernel, two points and one comparison the reported derivative differs from the derivative of the objective. The partial theorem gives the exact difference for all comparisons and kernels with F fixed: lines 555-559 add the sum of the entries of B^-1 dK grad instead of weighting them"
  },
  {
   "property": "C117",
   "status": "partial",
   "theorems": [
    "C117_length_partial",
    "C117_ordinal_refuted",
    "C117_ordinal_error_refuted",
    "C117_product_refuted",
    "C117_no_probit_refuted"
   ],
   "note": "refuted: ordinal validation labels raise NotImplementedError, product kernels give too few derivatives and the final subtraction fails, and with hyperparam_only_probit and no optimised probit the gradient is None. Proved for comparisons and ratings with additive kernels"
  },
  {
   "property": "C118",
   "status": "proved",
   "theorems": [
    "C118_value",
    "C118_determinant"
   ],
   "note": ""
  },
  {
   "property": "C119",
   "status": "proved",
   "theorems": [
    "C119_chances",
    "C119_never",
    "C119_always",
    "C119_dominated"
   ],
   "note": ""
  },
  {
   "property": "C120",
   "status": "partial",
   "theorems": [
    "C120_linear_refuted",
    "C120_gp_refuted",
    "C120_preference_gp"
   ],
   "note": "refuted: for linear models line 107 passes three arguments to a method of two, TypeError; for GP models p_B is unbound. Proved for preference GPs"
  },
  {
   "property": "C121",
   "status": "partial",
   "theorems": [
    "C121_independent_refuted",
    "C121_independent_partial",
    "C121_independent_range",
    "C121_independent_monotone",
    "C121_switch_refuted",
    "C121_switch_two_partial",
    "C121_default"
   ],
   "note": "refuted: independent divides by the variance instead of the standard deviation, wrong for every mean not zero and variance not one; switch on uncorrelated variables builds a singular covariance and fails, assuming scipy refuses singular covariances. Proved for unit variances, and for two correlated variables"
  },
  {
   "property": "C122",
   "status": "proved",
   "theorems": [
    "C122_differences",
    "C122_covariance",
    "C122_means",
    "C122_chances",
    "C122_two",
    "C122_two_order"
   ],
   "note": "the distribution function of approxcdf is an argument, exact for one variable in C122_two"
  },
  {
   "property": "C123",
   "status": "partial",
   "theorems": [
    "C123_defined",
    "C123_score",
    "C123_conditional",
    "C123_bound",
    "C123_duplicate",
    "C123_choice",
    "C123_first",
    "C123_deviation_refuted"
   ],
   "note": "refuted only in the last clause: the first choice weighs the variance and can differ from UCB with the same alpha"
  },
  {
   "property": "C124",
   "status": "proved",
   "theorems": [
    "C124_choice",
    "C124_covariance",
    "C124_divisors"
   ],
   "note": ""
  },
  {
   "property": "C125",
   "status": "partial",
   "theorems": [
    "C125_gp",
    "C125_linear",
    "C125_stored",
    "C125_unknown",
    "C125_stale_refuted"
   ],
   "note": "refuted only in the last clause: stored samples are returned for any candidates passed"
  },
  {
   "property": "C126",
   "status": "partial",
   "theorems": [
    "C126_sums",
    "C126_area_refuted",
    "C126_calc_refuted",
    "C126_calc_first_refuted",
    "C126_dimension_refuted",
    "C126_static_refuted",
    "C126_decay",
    "C126_dims",
    "C126_volume_refuted",
    "C126_few_refuted",
    "C126_bad_function"
   ],
   "note": "refuted: one factor of the grid spacing is missing, calc ignores the function, one dimension raises IndexError, coordinates after the second have no influence, FakeStaticSin falls between 8 and 10"
  },
  {
   "property": "C127",
   "status": "proved",
   "theorems": [
    "C127_exists",
    "C127_unique",
    "C127_gap",
    "C127_bounded",
    "C127_standstill",
    "C127_fixed_point"
   ],
   "note": "the uniqueness and the bounds are claimed for comparisons and ordinal labels only, the update for comparisons only"
  },
  {
   "property": "C128",
   "status": "proved",
   "theorems": [
    "C128_equation",
    "C128_likelihood",
    "C128_some",
    "C128_consistent",
    "C128_supporting",
    "C128_repeated",
    "C128_balanced",
    "C128_settled_equation",
    "C128_settled"
   ],
   "note": ""
  },
  {
   "property": "C129",
   "status": "proved",
   "theorems": [
    "C129_comparison",
    "C129_strict",
    "C129_ordinal",
    "C129_top",
    "C129_bottom",
    "C129_rating",
    "C129_settled"
   ],
   "note": ""
  },
  {
   "property": "C130",
   "status": "proved",
   "theorems": [
    "C130_contrary",
    "C130_exchanged",
    "C130_order",
    "C130_units",
    "C130_settled_contrary",
    "C130_settled_exchanged",
    "C130_settled_order",
    "C130_settled_units"
   ],
   "note": ""
  },
  {
   "property": "C131",
   "status": "partial",
   "theorems": [
    "C131_chain_refuted",
    "C131_settled_refuted",
    "C131_winner_partial",
    "C131_settled_winner_partial"
   ],
   "note": "refuted: if many points beat a point which beats one further point, the last answer is not respected; proved for one winner of all comparisons and independent points"
  },
  {
   "property": "C132",
   "status": "proved",
   "theorems": [
    "C132_mean",
    "C132_one",
    "C132_settled"
   ],
   "note": ""
  },
  {
   "property": "C133",
   "status": "proved",
   "theorems": [
    "C133_step",
    "C133_stop"
   ],
   "note": ""
  },
  {
   "property": "C134",
   "status": "proved",
   "theorems": [
    "C134_facts",
    "C134_gamma",
    "C134_density",
    "C134_mean",
    "C134_variance"
   ],
   "note": ""
  },
  {
   "property": "C135",
   "status": "proved",
   "theorems": [
    "C135_distribution",
    "C135_density",
    "C135_dominance",
    "C135_strict"
   ],
   "note": ""
  },
  {
   "property": "C136",
   "status": "proved",
   "theorems": [
    "C136_total",
    "C136_mean",
    "C136_variance",
    "C136_mode"
   ],
   "note": ""
  },
  {
   "property": "C137",
   "status": "proved",
   "theorems": [
    "C137_select",
    "C137_untrained",
    "C137_nothing",
    "C137_expected"
   ],
   "note": "the integration routine is an argument which is right up to an error err; select_greedy uses scipy quad_vec"
  },
  {
   "property": "C138",
   "status": "partial",
   "theorems": [
    "C138_gain_partial",
    "C138_code_partial",
    "C138_exact",
    "C138_same",
    "C138_loglikelihood_refuted"
   ],
   "note": "refuted: false for the log-likelihood alignment, which is not conditionally positive; proved for the other kinds, and for the cut integral of the code up to the largest alignment times the chance of a rating outside of the limits"
  },
  {
   "property": "C139",
   "status": "partial",
   "theorems": [
    "C139_limits_refuted",
    "C139_signs_partial",
    "C139_expected"
   ],
   "note": "refuted: the integral stops at 0.0001 and 0.9999 and is not normalised, so alignments which are all 1 give a score below 1; proved when 0 lies between the smallest and the largest entry, and for the integral over all ratings"
  },
  {
   "property": "C140",
   "status": "proved",
   "theorems": [
    "C140_score",
    "C140_positive",
    "C140_select",
    "C140_untrained"
   ],
   "note": "with exact integrals, once the debugger of line 82 is left, chances of the best positive and all candidates given"
  },
  {
   "property": "C141",
   "status": "partial",
   "theorems": [
    "C141_worst_refuted",
    "C141_order"
   ],
   "note": "refuted: the score falls when the candidate is valued more under every sample, so a candidate which is strictly the worst under all samples is the one selected"
  },
  {
   "property": "C142",
   "status": "partial",
   "theorems": [
    "C142_debugger_refuted",
    "C142_some_points_refuted",
    "C142_one_point_refuted",
    "C142_one_point_score",
    "C142_linear_refuted",
    "C140_select"
   ],
   "note": "refuted: line 82 stops in the debugger, leaving it raises; a GP with two or more but not all candidates given raises ValueError, with one given out of several it raises IndexError when another one has the best score; a linear model with a candidate that is never the best gives nan for all and returns the first; C140_select is the positive part"
  },
  {
   "property": "C143",
   "status": "proved",
   "theorems": [
    "C143_balance",
    "C143_stationary",
    "C143_unique",
    "C143_constant",
    "C143_stationary_finite",
    "C143_converges_finite"
   ],
   "note": "real vectors with normal proposals: integrals over all vectors as limits over cubes, draws by iterated integrals, likelihoods that are nowhere zero; convergence from any start for finitely many states"
  },
  {
   "property": "C144",
   "status": "proved",
   "theorems": [
    "C144_predictions",
    "C144_order"
   ],
   "note": "for sets of comparisons, normalize_gp off"
  },
  {
   "property": "C145",
   "status": "proved",
   "theorems": [
    "C145_predict",
    "C145_reproducible",
    "C145_reset",
    "C145_once"
   ],
   "note": "for comparisons, with normalize_gp, pareto_pairs and use_hyper_optimization off; C145_reset for all calls on the store"
  },
  {
   "property": "C146",
   "status": "partial",
   "theorems": [
    "C146_candidate_refuted",
    "C146_select_refuted",
    "C146_endless_refuted",
    "C146_other_models_refuted",
    "C146_two_partial",
    "C146_two_order_partial",
    "C146_same_selection"
   ],
   "note": "refuted: select_greedy has no return statement, and for models other than PreferenceGP its array is unbound, so select fails, or with return_not_selected does not end; proved: for two candidates the values it prints are the chances of being the better one; missing: the same for more candidates, which depends on the cdf routine of scipy"
  },
  {
   "property": "C147",
   "status": "partial",
   "theorems": [
    "C147_mass_refuted",
    "C147_stationary_refuted",
    "C147_separable",
    "C147_nodata"
   ],
   "note": "refuted: PreferenceLinear.loss_func has no prior, so with comparisons only the likelihood of the weights has an infinite integral and no bounded density is stationary under the sampler; without data the samples are a random walk"
  },
  {
   "property": "C148",
   "status": "partial",
   "theorems": [
    "C148_mean",
    "C148_accept",
    "C148_mono",
    "C148_strict",
    "C148_range",
    "C148_gap",
    "C148_stored_refuted",
    "C148_single_refuted"
   ],
   "note": "refuted: lucky draws let a beta far off pass, and with a single query (two alternatives) every aim between 0.15 and 0.85 makes the tuning raise; proved: the mean of the objective, a bound on the chance that a bad beta is accepted, and how the accuracy depends on beta"
  },
  {
   "property": "C149",
   "status": "proved",
   "theorems": [
    "C149_any",
    "C149_accept",
    "C149_chance",
    "C149_pairs",
    "C149_range",
    "C149_mono",
    "C149_strict",
    "C149_integral",
    "C149_exists",
    "C149_objective",
    "C149_threshold",
    "C149_least",
    "C149_falls",
    "C149_falls_strict",
    "C149_lead"
   ],
   "note": "for queries of any number of options"
  },
  {
   "property": "C150",
   "status": "proved",
   "theorems": [
    "C150_probit",
    "C150_unique"
   ],
   "note": ""
  },
  {
   "property": "C151",
   "status": "proved",
   "theorems": [
    "C151_value",
    "C151_zero"
   ],
   "note": "unused code"
  },
  {
   "property": "C152",
   "status": "partial",
   "theorems": [
    "C152_vector",
    "C152_rows",
    "C152_rows_refuted",
    "C152_count_refuted"
   ],
   "note": "refuted: a row far below the largest entry of the matrix becomes NaN; proved for vectors and for matrices whose rows all reach near the maximum"
  },
  {
   "property": "C153",
   "status": "partial",
   "theorems": [
    "C153_nan",
    "C153_selected",
    "C153_best_refuted"
   ],
   "note": "refuted: a candidate with an underflowed probability has gain NaN and is selected; proved which queries give NaN"
  },
  {
   "property": "C154",
   "status": "partial",
   "theorems": [
    "C154_snapshot",
    "C154_second",
    "C154_copied",
    "C154_first_refuted",
    "C154_folded_refuted",
    "C154_removed",
    "C154_failed_refuted",
    "C154_ordinal_refuted",
    "C154_index_refuted"
   ],
   "note": "refuted: arrays of the first call stay shared with the caller; proved if arrays are left alone after they were passed, and for points after the second call"
  },
  {
   "property": "C155",
   "status": "partial",
   "theorems": [
    "C155_box",
    "C155_kept",
    "C155_corners",
    "C155_single_refuted",
    "C155_two_refuted"
   ],
   "note": "refuted for one or two points in a new model; proved for three and more"
  },
  {
   "property": "C156",
   "status": "partial",
   "theorems": [
    "C156_evaluated",
    "C156_chosen",
    "C156_regret",
    "C156_rank",
    "C156_distinct",
    "C156_accuracy",
    "C156_shares",
    "C156_full_marks",
    "C156_index_refuted",
    "C156_ties_refuted",
    "C156_none_refuted"
   ],
   "note": "refuted for index lists that are not the first paths, for equal utilities and for no problems; proved otherwise"
  },
  {
   "property": "C157",
   "status": "partial",
   "theorems": [
    "C157_range",
    "C157_pearson",
    "C157_rho",
    "C157_same_order",
    "C157_listed",
    "C157_spearman_refuted"
   ],
   "note": "refuted: the spearman value depends on the listing of the paths; proved for paths listed from best to worst and for scores in the order of the utilities"
  },
  {
   "property": "C158",
   "status": "partial",
   "theorems": [
    "C158_recorded",
    "C158_runs",
    "C158_agrees",
    "C158_mark",
    "C158_all_correct",
    "C158_perfect",
    "C158_human",
    "C158_tie_refuted",
    "C158_ranking_refuted",
    "C158_perfect_refuted",
    "C158_single_refuted"
   ],
   "note": "refuted for the perfect user, rankings, problems with one path and ties; proved otherwise"
  },
  {
   "property": "C159",
   "status": "partial",
   "theorems": [
    "C159_exact",
    "C159_small",
    "C159_preferred",
    "C159_medoids_refuted",
    "C159_default_refuted",
    "C159_preferred_refuted"
   ],
   "note": "refuted for the modes true and the default and for preferred paths after down-selection; proved for uni, downhull and medrand"
  },
  {
   "property": "C160",
   "status": "partial",
   "theorems": [
    "C160_range",
    "C160_order",
    "C160_order_refuted",
    "C160_mode_refuted",
    "C160_contradiction_refuted",
    "C160_single_refuted"
   ],
   "note": "refuted for a single point, whose value between 0 and 1 is NaN, for the order of predictions between 0 and 1, for the mode and for contradictory answers; proved: the range, and the order of predicted means with absolute values up to 1"
  },
  {
   "property": "C161",
   "status": "partial",
   "theorems": [
    "C161_domain",
    "C161_step",
    "C161_boundary_refuted",
    "C161_rollback_refuted",
    "C161_combination_refuted"
   ],
   "note": "refuted: a length scale of exactly zero is kept, a bad update is redrawn instead of rolled back, and sums and products of kernels always fail; proved: after any run no searched parameter has left its closed domain, and an update is the gradient step or new draws"
  },
  {
   "property": "C162",
   "status": "partial",
   "theorems": [
    "C162_success",
    "C162_domain",
    "C162_small",
    "C162_repeated_refuted",
    "C162_ordinal_refuted"
   ],
   "note": "refuted: after a failing search the model counts as optimised with values of a part of the data, and later predictions raise ValueError, for repeated points with a noiseless kernel and for ordinal labels; proved: what a returned optimisation means, and that a failure without a search leaves the model unoptimised"
  },
  {
   "property": "C163",
   "status": "partial",
   "theorems": [
    "C163_ratio",
    "C163_finite",
    "C163_pull_refuted",
    "C163_sigma_refuted"
   ],
   "note": "refuted: comparisons violated by 1000 standard deviations have zero gradient and W, and the smallest noise gives NaN; proved: everything is finite for noise between 2^-400 and 2^400 and latent values up to 2^500; library functions are taken as correctly rounded"
  },
  {
   "property": "C164",
   "status": "partial",
   "theorems": [
    "C164_range",
    "C164_inside_refuted",
    "C164_distinct_refuted",
    "C164_finite_refuted"
   ],
   "note": "refuted: the largest reward can become exactly 1 (rewards 0 and 2^60, any margin up to 1), different rewards can merge (0 and 2^-70 beside 1), and a range beyond the largest double gives NaN. Proved for all other inputs: every output is a number in (0,1], order is never reversed, equal rewards get equal outputs"
  },
  {
   "property": "C165",
   "status": "partial",
   "theorems": [
    "C165_class",
    "C165_method",
    "C165_alpha",
    "C165_built",
    "C165_built_refuted",
    "C165_run",
    "C165_unknown",
    "C165_flags",
    "C165_alignment",
    "C165_numbers",
    "C165_switch",
    "C165_rep",
    "C165_rep_refuted",
    "C165_ratings",
    "C165_ratings_refuted",
    "C165_perfect_refuted"
   ],
   "note": "refuted: four accepted selectors have no learner and fail at the first question, two ignore the type of representative questions, ABS_BAYES_PROBIT asks comparisons, MUTUAL_INFO_PERF never gets the true utility; proved: all other selectors give a learner, and flags, alignment, scalar, alpha, kind and representative questions are those of name and settings"
  },
  {
   "property": "C166",
   "status": "partial",
   "theorems": [
    "C166_saved",
    "C166_saved_refuted",
    "C166_folder",
    "C166_dir",
    "C166_dir_refuted",
    "C166_flag_refuted"
   ],
   "note": "refuted: after an interrupt the file has a row that no run has written, a folder given without a slash at its end stays empty, and a flag given as False is on; proved: otherwise the file has exactly the finished runs, and after an interrupt it starts with them"
  },
  {
   "property": "C167",
   "status": "partial",
   "theorems": [
    "C167_snapshot",
    "C167_second",
    "C167_outputs",
    "C167_first_refuted",
    "C167_predict_refuted",
    "C167_folded_refuted",
    "C167_sigma_refuted"
   ],
   "note": "refuted: the points and a list of uncertainties of the first call stay shared with the caller, so predictions follow later writes while the outputs keep the mean function at the old points; proved if they are left alone, for the outputs always, and for everything after the second call"
  },
  {
   "property": "C168",
   "status": "partial",
   "theorems": [
    "C168_named",
    "C168_starts",
    "C168_checked",
    "C168_user_refuted",
    "C168_hyper_refuted",
    "C168_ignored_refuted",
    "C168_prior_refuted"
   ],
   "note": "refuted: --user and --hyper are not checked before the results folder is made, a misspelt --hyper ends with the status of success or is ignored, the perfect user never starts, and prior points end every experiment with pareto pairs; proved: whatever starts is as named, and the other options are checked"
  },
  {
   "property": "C169",
   "status": "partial",
   "theorems": [
    "C169_label",
    "C169_likely",
    "C169_ends",
    "C169_bottom",
    "C169_few",
    "C169_sum",
    "C169_middle_refuted",
    "C169_top_refuted",
    "C169_many_refuted"
   ],
   "note": "refuted: the log likelihood is minus infinity once one label of the highest category is far above its value, or once 1076 labels have likelihood one half or less, and the gradient of an unlikely middle label is NaN; proved: each likelihood is a number, the derivatives are numbers for likely labels and for the end categories, and so are the sum of logarithms and the log likelihood of few labels"
  },
  {
   "property": "C170",
   "status": "partial",
   "theorems": [
    "C170_infinite",
    "C170_later",
    "C170_answers",
    "C170_best",
    "C170_worst",
    "C170_first_refuted",
    "C170_lost_refuted",
    "C170_nan_refuted"
   ],
   "note": "refuted: a first row of NaN is returned as the whole front, a first row with some NaN removes rows that are on the front, and the best and the worst learner both take a candidate whose value is NaN; proved: infinite values are ordered like numbers, rows of NaN behind a complete first row change nothing, and the learners always answer"
  },
  {
   "property": "C171",
   "status": "partial",
   "theorems": [
    "C171_symmetric",
    "C171_matrix",
    "C171_accurate",
    "C171_near_refuted",
    "C171_far_refuted",
    "C171_length_refuted",
    "C171_sigma_refuted",
    "C171_factor",
    "C171_factor_refuted",
    "C171_real"
   ],
   "note": "refuted: points closer than 2^-41 length scales get the covariance of equal points and points more than 512 length scales apart get none, a positive length scale below 2^-540 gives NaN on the diagonal, a positive sigma below 2^-540 gives none at all, and two training points this close raise LinAlgError when noise and uncertainty are below 2^-53 sigma^2 although over the reals the factorisation exists; proved: symmetry always, numbers between 0 and the rounded sigma^2 for any points and all but extreme parameters, an error of at most (4 d + 40) 2^-53 sigma^2 for parameters and distances of ordinary size, and the factorisation for two points when noise and uncertainty are at least 2^-40 sigma^2"
  },
  {
   "property": "C172",
   "status": "partial",
   "theorems": [
    "C172_kernels",
    "C172_gp",
    "C172_store",
    "C172_no_mixture",
    "C172_simplest",
    "C172_simplest_sum",
    "C172_failed_refuted",
    "C172_linear_rows",
    "C172_pareto_refuted",
    "C172_vector_refuted",
    "C172_linear_refuted",
    "C172_widths_refuted",
    "C172_first_use_refuted",
    "C172_gradients",
    "C172_gradient_mixture_refuted"
   ],
   "note": "refuted: a call that raises still fixes the zero point of a zeroed kernel by the width of its first array; with Pareto pairs every addition of plain numbers that makes more than one point raises after points and labels are stored, the linear model never predicts for plain numbers, one point given as a vector is stored as several points, kernels broadcast a number against a row instead of rejecting it, and a zeroed kernel remembers the number of coordinates of its first call; proved: any history of covariances and of their gradients, of GP data and predictions and of store calls without Pareto pairs is the same for plain numbers and for rows with one coordinate, and a store never mixes the two"
  },
  {
   "property": "C173",
   "status": "partial",
   "theorems": [
    "C173_pull",
    "C173_stuck_refuted",
    "C173_label_refuted"
   ],
   "note": "refuted: when the drawn weights contradict every label by 70 standard deviations, gradient and curvature are exactly zero, the inversion raises and the fit ends after one round with the drawn weights, and with the default noise and the points (0, 0) and (100, 100) that happens from every start; proved: below 40 standard deviations the derivative of a label is a number that is not zero and has the sign of the label"
  },
  {
   "property": "C174",
   "status": "partial",
   "theorems": [
    "C174_parameters",
    "C174_stored",
    "C174_finite",
    "C174_pull_refuted",
    "C174_missing_stored_refuted",
    "C174_missing_refuted"
   ],
   "note": "refuted: a missing rating (NaN) passes the check and makes the gradient, the curvature and the log likelihood missing, and 70 standard deviations away from zero a rating has no gradient and no curvature; proved: ratings that are numbers between 0 and 1 are stored strictly inside, the Beta parameters are positive for every value of the point, and derivatives and log likelihood are numbers for library functions of the usual size"
  },
  {
   "property": "C175",
   "status": "partial",
   "theorems": [
    "C175_models",
    "C175_sum_model",
    "C175_accuracy",
    "C175_training",
    "C175_long_order",
    "C175_fresh",
    "C175_report",
    "C175_ragged_refuted",
    "C175_broadcast_refuted",
    "C175_short_order_refuted",
    "C175_untrained_refuted",
    "C175_spread_refuted"
   ],
   "note": "refuted: the spread reported for the GP is computed from the accuracies of the linear model, runs of different lengths end in a ValueError, a run without training data has its one accuracy repeated as if it had been trained, a shorter order leaves uninitialised entries, and a model without an opinion scores the share of the choices of the first option; proved: the accuracy is the share of predicted choices, entry k belongs to the model after the first k choices, reset keeps runs apart, and the spreads of the other two models are right"
  },
  {
   "property": "C176",
   "status": "partial",
   "theorems": [
    "C176_examined",
    "C176_inside",
    "C176_short_steps_refuted",
    "C176_missing_refuted",
    "C176_end",
    "C176_newton_refuted",
    "C176_iterative",
    "C176_iterative_inside",
    "C176_same",
    "C176_newton_same",
    "C176_rules"
   ],
   "note": "refuted: binary_line_search goes to the longest step when both examined values are minus infinity, and already when the value of the longer one is missing, so that a Newton update can leave a vector with an objective for one without; proved: with minus infinity beyond a quarter of the way the step stays where the objective is a number, and iterative_line_search returns the best step of its grid that has a value and raises only when none has"
  },
  {
   "property": "C177",
   "status": "partial",
   "theorems": [
    "C177_picture",
    "C177_covers",
    "C177_default_refuted",
    "C177_scaled",
    "C177_zero_refuted",
    "C177_arrow",
    "C177_label_refuted",
    "C177_no_prior",
    "C177_shown_refuted",
    "C177_band"
   ],
   "note": "refuted: with the default bounds all points of the picture are (0, 2), the scaled utility is missing everywhere when the utility is zero on the grid, labels other than -1 and 1 are drawn as preferences, and points added before the prior points are left out; proved: the picture is right for every bounds given as one range per reward, the scaling, the arrows of labels -1 and 1, all points without a prior, the band"
  },
  {
   "property": "C178",
   "status": "partial",
   "theorems": [
    "C178_distinct",
    "C178_kinds",
    "C178_same_digits",
    "C178_first_ten",
    "C178_order_refuted",
    "C178_padded",
    "C178_digits"
   ],
   "note": "refuted: the result of zfill is not used, so every step from the tenth on is listed before one of the first nine; proved: the names are distinct, steps with equally many digits sort right, and so would the first thousand with the padded text"
  },
  {
   "property": "C179",
   "status": "partial",
   "theorems": [
    "C179_plane",
    "C179_flat",
    "C179_stale_refuted",
    "C179_column_refuted",
    "C179_given_refuted",
    "C179_large",
    "C179_given_large_refuted",
    "C179_ratings"
   ],
   "note": "refuted: for plain numbers the utilities of the last fit are used, so that preferences for points added since raise an IndexError; columns of one reward raise an IndexError; given points are ignored by a model without data and their number of rewards is not checked; proved: arrows and ratings when every point has a utility or lies in the plane"
  },
  {
   "property": "C180",
   "status": "partial",
   "theorems": [
    "C180_scores",
    "C180_bin",
    "C180_low_refuted",
    "C180_within_refuted"
   ],
   "note": "refuted: utilities up to zero get the rating -0.1, and with a negative lower bound some within the bounds; proved: monotone for all bounds, the middle of the bin for positive utilities and bounds from zero upwards"
  },
  {
   "property": "C181",
   "status": "partial",
   "theorems": [
    "C181_kept",
    "C181_posterior",
    "C181_rejects",
    "C181_rejects_outputs",
    "C181_failed",
    "C181_list_outputs_refuted",
    "C181_one_point_refuted",
    "C181_short_list_refuted",
    "C181_one_output_refuted",
    "C181_unusable_refuted"
   ],
   "note": "refuted: an array of uncertainties given with one output is stored whole and shifts the uncertainties of all later points, lists of uncertainties are never compared with the number of outputs and a short one is repeated, one output for several points is taken for all of them or accepted and never usable, and lists of outputs raise a TypeError without a mean function; proved: histories that give one output and one uncertainty per point store exactly these and predict their posterior, and arrays of wrong length are rejected for several outputs"
  },
  {
   "property": "C182",
   "status": "partial",
   "theorems": [
    "C182_mode",
    "C182_fit",
    "C182_fit_normalised",
    "C182_derivatives",
    "C182_predict",
    "C182_noise",
    "C182_default",
    "C182_positive_refuted",
    "C182_ordinal_refuted",
    "C182_ordinal_ends_refuted",
    "C182_ordinal"
   ],
   "note": "refuted for ordinal labels: their breakpoints run from 0 to b, so that the scale is centred at b/2 while the prior is centred at 0, the lowest label at a value is always more likely than the highest at the opposite value, and the mode for the highest label is never the opposite of the one for the lowest; refuted for normalisation to positive values; proved for comparisons and ratings together: the mode, every round of find_mode from the opposite start including clipping, predictions and the derivatives for the noise, with the default eps"
  },
  {
   "property": "C183",
   "status": "partial",
   "theorems": [
    "C183_enough",
    "C183_short_refuted",
    "C183_same",
    "C183_picture_refuted"
   ],
   "note": "refuted: a vector that is too short raises IndexError after the first parameters were overwritten, so that the kernel afterwards has the new entries followed by the old rest; refuted: visualize_hyperparameter never draws, because hyperparameter_obj is called without bounds (TypeError) or the kernel has more than two parameters (IndexError), and it leaves the kernel with 0.5 and 10**0.01 and, for two parameters, the comparison noise at 10**0.01; proved: vectors that are long enough set every parameter, extra entries are ignored, and the outcome is that of kset"
  },
  {
   "property": "C184",
   "status": "partial",
   "theorems": [
    "C184_symmetric",
    "C184_periodic",
    "C184_periodic_self",
    "C184_length_refuted",
    "C184_overflow_refuted",
    "C184_period_refuted",
    "C184_linear",
    "C184_linear_self",
    "C184_centre_refuted"
   ],
   "note": "refuted: length scales up to 2^-540 make the diagonal NaN; a phase that overflows makes the covariance NaN; points 2^52 periods apart have at most 11/16 of the variance, the exact value is the variance; a centre 2^k absorbs coordinates between -2^(k-53) and 0, so that all such points get one covariance; proved: symmetry for all parameters, range between 0 and the rounded variance, the diagonal, finite linear covariances with a diagonal of at least the rounded offset; np.sin and np.exp are taken as correctly rounded"
  },
  {
   "property": "C185",
   "status": "partial",
   "theorems": [
    "C185_ratings",
    "C185_grades",
    "C185_removed_refuted",
    "C185_refused_refuted"
   ],
   "note": "refuted: after remove_without_reference has taken out a point, predictions of a fitted model fail with ValueError; after a reset and an addition that is refused the values fitted to the old data are combined with the new points; proved: the labels seen by the fit for batches of ratings and of grades"
  },
  {
   "property": "C186",
   "status": "partial",
   "theorems": [
    "C186_rating_valley",
    "C186_rating_root",
    "C186_rating_edge",
    "C186_pair_value",
    "C186_pair_valley_partial",
    "C186_pair_root_partial",
    "C186_pair_refuted"
   ],
   "note": "refuted for obj: nearly tied pairs enter the mean only from some rationality on, so the objective can rise between two better values; proved for rate_obj; proved for obj from the rationality at which every pair counts"
  },
  {
   "property": "C187",
   "status": "partial",
   "theorems": [
    "C187_chance",
    "C187_accurate",
    "C187_pair",
    "C187_objective",
    "C187_rating",
    "C187_rating_objective",
    "C187_flat",
    "C187_target_refuted"
   ],
   "note": "refuted: where all pairs are clear the objective no longer depends on the rationality, and the target 1 counts as met; proved: the range, when the value is NaN, and the distance from the exact objectives"
  },
  {
   "property": "C188",
   "status": "partial",
   "theorems": [
    "C188_mean",
    "C188_near",
    "C188_rational_refuted",
    "C188_single_refuted",
    "C188_sigma_refuted"
   ],
   "note": "refuted: the variance of the sampled answers is part of the objective and is smaller for more certain users, so users that are too rational look better on average, for any number of queries; with a single query the most rational user and the smallest noise always win; proved: the mean of the objective, and that a user that looks no worse misses the aim by little more"
  },
  {
   "property": "C189",
   "status": "partial",
   "theorems": [
    "C189_order",
    "C189_human",
    "C189_accurate",
    "C189_users",
    "C189_best_refuted",
    "C189_worst_refuted"
   ],
   "note": "refuted: options whose scaled utility is at least 54 all get the rating 1, and bad ones the rating 0; proved: ratings are numbers from 0 to 1 in the order of the utilities, up to ties, and within 2^-46 of the exact ones"
  }
 ]
}