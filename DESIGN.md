# Formal model of `lop` — design

The subject is the python package in `/repo/src/lop` (learning objective functions from preferences).
It is read as text only; nothing is run.  The model is written in Rocq/Coq 8.16.1 under `rocq/theories`.

## Conventions

* Shallow Gallina functions that follow the python branch by branch.  Every definition carries a comment with the
  file and lines it models; simplifications are stated in that comment.
* Exceptions are values: `result A := Ok a | Raise e` (`M_Base.v`).
* Random draws (`np.random.*`, `random.*`) are explicit arguments (streams or oracle functions); theorems quantify
  over all of them.
* Python `set` iteration order is not specified, so code that does `list(some_set)` is modelled with an arbitrary
  enumeration function; theorems hold for all enumerations that permute the set.
* Finite floats used only for comparison are modelled by rationals `Q` (executable); code that needs
  exp/log/normal CDF is modelled over `R`.  Rounding, overflow, NaN and infinities of IEEE floats are *not* modelled
  except in the files `M_Float*` and `M_Special` and where the code tests for `-inf` explicitly, which becomes `None`.
* External numeric routines (matrix inversion, scipy optimisers, `digamma`) are not modelled internally; where a
  theorem needs them they are universally quantified functions, with the needed contract as a visible hypothesis.
  The exceptions are `np.linalg.cholesky` and `cho_solve`, modelled by the textbook recursions in exact arithmetic.

Files are split in three kinds: `M_*.v` (model only, no proofs), `S_*.v` (small independent specifications), `P_*.v`
(lemmas), `T_*.v` (property theorems: statement, `exact`, `Print Assumptions`, plus the non-vacuity `Example`s).

## Trusted base

* The Coq kernel (8.16.1) and `vm_compute`.
* Axioms reported by `Print Assumptions` for each theorem (see the section "Assumptions per theorem" below): theorems
  on discrete code are closed under the global context; theorems over `R` use only the standard library's
  axioms for the classical reals (`ClassicalDedekindReals.sig_forall_dec`, `ClassicalDedekindReals.sig_not_dec`,
  `FunctionalExtensionality.functional_extensionality_dep`) and, through Coquelicot, possibly `Classical_Prop.classic` and
  the standard library's epsilon.
* The reading of the python source.
* For C152 and C153: that numpy's additions, products, quotients, `exp` and `log2` round the exact result to the nearest
  binary64 number.  The rounding function is Flocq's; Flocq brings no axioms of its own.

## Plan per property

| id | code modelled | method |
|----|---------------|--------|
| C01-C04 | `preference_pairs.py` | list functions over `Q` values; induction; acyclicity through the value order; C04 refuted (no `return`) |
| C05-C06 | `pareto.py` | fuelled loop over (index,row) lists; loop invariant; equality with a filter specification |
| C07-C08 | `sample_utility.py` | rounds as fuelled recursion over draw streams; safety by invariant; non-termination = every fuel runs out |
| C09-C11 | `training_utility.py:k_fold_x_y` | draws as oracles; partition invariant, counting argument for ceil(N/k); C11 refuted by a 9-point witness |
| C12 | `get_y_with_idx` | list relation spec |
| C13 | `normalize_0_1` | `R`, field/order reasoning |
| C14-C15 | `human_choice_model.py` | softmax over `R` lists; inverse CDF sampling as done by numpy |
| C16 | `mcmc_sampling.py` | recursion over proposal/threshold streams |
| C17 | `gamma_dist.py` | Coquelicot `is_derive`; Gamma function an arbitrary positive function |
| C18-C27,C30,C74 | `PreferenceModel.py` data store | record state + step functions; induction over op lists; refutations by `vm_compute` |
| C28-C29,C77 | get/set/randomize hyper, log prior | lists of probit records and kernel expression trees; induction on trees |
| C31-C37,C76 | `kernels/` | kernel expression trees over `R`; PSD through finite feature maps and limits; derivatives with Coquelicot |
| C38-C42 | `PreferenceProbit.py`, `ProbitBase.py` | normal CDF as integral (Gaussian integral proved); derivatives with Coquelicot; sums over pair lists |
| C43-C44,C47 | `OrdinalProbit.py` | telescoping sums of the CDF; derivatives with Coquelicot; Mills ratio bounds for unlikely labels; indexed assignment as a fold; the gradient of a middle rating with one threshold close by is compared with the mean of a truncated normal |
| C45-C46,C81-C82 | `AbsBoundProbit.py` | special functions (log gamma, digamma, trigamma, tetragamma) are arguments of the model; theorems hold for all functions that are derivatives of each other |
| C48-C50,C78-C80 | line searches, Newton loops, normalisation, hyper-parameter loop | fuelled/structural recursion with the objective as a function argument |
| C51-C58 | `ActiveLearner.py` and simple learners | selection loop with greedy oracle; invariants; refutations by witnesses |
| C59-C60, C91-C93 | `MutualInfoLearner`, `BayesInfoGain` | finite sums over `R`; Gibbs inequality |
| C61, C94-C103 | `AcquisitionBase`, `AcquisitionSelection`, integrand of `AbsAcquisition` | finite sums over `R`; conditionally positive matrices (Schur products and limits of polynomials) |
| C62-C66, C75 | `RateChooseLearner`, `MixedStrategy`, `MixedTypeDecision` | counter/state machines over call histories |
| C67-C69, C104-C107 | `GP.py`, `PreferenceGP.predict`, `predict_large` | store as state machine; Cholesky recursion on Schur complements, exists iff positive definite; chunk loop invariant; C67 and C69 refuted in part |
| C108-C114 | `PreferenceGP.find_mode` (one update), `derivatives`, `likli_f`, `PreferenceLinear.py` | directional derivatives with Coquelicot; log-concavity of the normal CDF for the global mode; rank-one Hessian for the single-comparison counterexample; inversion routines are arbitrary functions with a stated contract; ratings: the curvature of a rating from the digamma and trigamma functions (`T_FitAbs`), trigamma at most 1/x + 1/x^2 for the default-parameter counterexample |
| C115-C118 | `PreferenceGP.hyperparameter_obj`, `hyperparamter_obj_grad`, `likli_f_hyper`, `grad_likli_f_hyper` | determinants by Laplace expansion, shown to be multilinear, alternating and normalised; Jacobi's formula; a path argument for det(I + K W) >= 1; an explicit two-point model for the wrong covariance derivative; `invert_function` is an arbitrary routine that inverts invertible matrices |
| C119-C125 | `calc_cdf`, `p_B_pref_gp`, `p_B_pref_linear`, `get_p_B_probit`, `GV_UCBLearner`, `UCBLearner` for linear models, `get_samples_from_model` | counting of first maxima by induction over the samples; the covariance of differences as a congruence of the covariance; determinant of a bordered matrix by expansion along the first row, and of positive semidefinite matrices as a limit; normal distribution functions of other packages are arguments with a contract stated in the theorem |
| C126 | `FakeIntegrate`, `FakeStaticSin`, `FakeSinExp` | prefix sums over the grid by induction on both indices |
| C127-C132 | the target of `find_mode` (`log_post`, `mode_step`) and `predict` of PreferenceGP at that target | existence (also with ratings, by convexity of log gamma): a finite grid search per mesh width, Bolzano-Weierstrass coordinate by coordinate, and the bound F_i^2 <= K_ii F'BF from Cauchy-Schwarz; uniqueness: concavity everywhere (no clipping hypothesis); answers at the mode from the stationarity equation F = K g; a further answer by comparing two maxima; refutation: many points beat one point, which beats a last one |
| C133 | the whole loop of `find_mode` from a given start (`fit_mode`, `f_err` in M_Mode; comparisons, `normalize_gp` off) | the line search returns a step length in [3/32, 45/32]; the slope at the start of an update bounds the distance to the mode (concavity of the likelihood, strong concavity of the prior); the curvature of a comparison is below 1 (z + phi/Phi bounded by derivatives of Mills' ratio), so it is at most `load` times that of the prior; Cauchy-Schwarz |
| C134-C135 | `AbsBoundProbit.py` with the true special functions | log gamma by the Weierstrass product, its derivatives as series differentiated term by term; Bohr-Mollerup for uniqueness; the total of the Beta density by recurrences in both parameters and a squeeze over shifted integers; mean and variance from the recurrences; dominance because the quotient of two densities is monotone |
| C136 | `pdf_gamma` with the true gamma function | recurrence in k by parts, the value at k = 1, and Young's inequality between integers, which gives the same bounds as convexity of log gamma |
| C137 | `select_greedy` of `AbsAcquisition` with the quadrature as an argument | the integrand is continuous inside (0,1) and bounded by the largest alignment times the rating density, so the improper integral exists; argmax up to twice the error |
| C138 | expected alignment after a rating | the integrand minus its linear part is a quadratic form of the centred densities; conditionally positive alignments make it nonnegative |
| C139 | range of the reported score | refuted with constant alignments; proved with 0 in the range and for the full integral |
| C140 | `select_greedy` of `AbsBayesInfo` with nan as a value, the debugger and the quadrature as arguments | the density above the mean link has total 1 - cdf; normalising it makes the logarithm constant |
| C141 | order of these scores | refuted for all inputs by the stochastic dominance of C135 |
| C142 | shapes and zero chances | refuted by evaluation; C119 gives the zero chances of linear models |
| C143 | `metropolis_hastings`; draws averaged by sums or by iterated integrals over normal draws and thresholds (`S_MH`, `S_MHR`) | the mean over draws is the power of a transition operator; finitely many states: balance gives invariance, a minorisation the contraction; real vectors: Fubini for box integrals of continuous functions, the draws z and -z cancel up to the boundary of a cube, which vanishes as the cube grows; uniqueness from the integral of the squared differences of the ratio of the densities |
| C144 | `fit_mode` followed by `pgp_predict` (comparisons, `normalize_gp` off) | the stopping rule bounds the distance to the mode in the norm of the prior (C133); the covariances with a new point have at most the prior variance of that point in the inverse norm (Schur complement), Cauchy-Schwarz |
| C145 | the whole object: `M_Store` + `fit_mode` + `pgp_predict` (`M_Whole`), histories of `add` with comparisons, `predict`, `reset` | invariant over the history: the store is what the independent function `given` collects, and an object marked optimised holds a fit to it; then C144, existence of the mode (C127) and its invariance under permutations |
| C146 | `ProbabilityLearner.select_greedy` (`M_Prob`), `select` for a learner that may return None | no branch of `select_greedy` returns an index; `set.remove(None)` raises in the first round; the loop of `return_not_selected` does not change while a preferred point is left; two candidates by computation |
| C147 | `lin_loss` for comparisons (`M_Fit`) as log likelihood of `metropolis_hastings` | each comparison has likelihood at least ndtr(-30), so the mass of a cube grows with its volume; a stationary density would be proportional to the likelihood (C143); a cone of weights around weights that explain the data has likelihood at least 1/2^m |
| C148,C151 | `sampled_objective`, `kl_objective` (`M_Tune`) and the retry loop of `M_User`; means over draws are iterated integrals given as relations (`S_Tune`) | the integral of a step splits into a two-point mean, so the mean over all draws is a Bernoulli sum; Chebyshev; the chance of the best option is the inverse of a sum of exponentials that falls with beta |
| C149,C150 | `rate_sampled_objective` (`M_Tune`), `likelihood` (`M_PrefProbit`) | the convolution of two normal densities: exchange of integrals on a rectangle, product of two bells, limits over the line; for any number of options one integral over the noise of the best one, by parts, one draw after another |
| C152,C153 | `p_human_choice`, `sampled_objective`, `calc_info_gain`, `select_greedy` once more over values NaN, ±inf and rounded reals (`M_Float`); `np.sum` is any order of rounded additions; binary64 rounding is Flocq's `round` (`S_Float`). Elementary functions are taken as correctly rounded, signs of zero are left out | weights lie in [0,1] by monotone rounding; exp(-1076) is below half the smallest number; NaN absorbs in every sum |
| C154 | `PreferenceModel.add`, `add_prior`, `remove_without_reference`, `reset` with references to arrays of the caller (`M_Alias`, over `M_Store`) | the data as read refine `M_Store`; invariant: only arrays passed before are kept |
| C155 | `add_prior` with method random (`M_RandPrior`, over `M_Store`), draws as arguments | the upper corner dominates every draw below 1; theorem of C26 |
| C156 | `evaluation` of the experiments (`M_Eval`), `select_best`; sorting and enumeration of sets as arguments | a sorted permutation bounds the rank by the counts of better and not worse paths |
| C157 | the correlations of `evaluation` (`M_Eval`) | ranges by Cauchy-Schwarz, ranks of a strictly decreasing list, witness for the spearman value |
| C158 | the training loop `train_and_eval` (`M_Train`, over `M_Store`, `M_Pairs`), answers and selections as arguments | invariant over the problems, theorems of C07/C21 about pairs and store |
| C159 | down-selection (`M_Down`); medoids, hull and draws as arguments that give positions | composition of lists of distinct positions |
| C160 | `find_mode` with normalisation (`M_NormMode`), the state carries nan as `None` | the last step is a normalisation; bound of the mode from its value at zero; kernel example for the order |
| C161 | update step of `hyperparameter_search` and the draw at the start of `optimize` (`M_HyperRun`) | invariant over all updates; the prior is minus infinity or very small outside the domain, so the parameters are drawn again |
| C162 | `optimize` with hyper-parameters and the predictions afterwards (`M_HyperFit`); each pass of the loop is given its part of the data; after a raising `find_mode` the attributes are not followed | case analysis of the calls; a repeated point makes the noiseless covariance singular, so the gradient raises |
| C163 | the comparison probit in binary64 (`M_FloatProbit`): every operation and library function exact, then rounded | bounds by whole numbers and powers of two, which rounding keeps; lower bound of the normal distribution function by the mean value theorem |
| C164 | `normalize_0_1` in binary64 (rounding after every operation, Flocq): as in C163 | a number times its rounded inverse is at most 1 + 2^-53, which rounds to 1; monotone rounding; absorption of half a unit in the last place |
| C165 | configuration of experiments (`M_Config`): the branches as a table, a learner as the tree of its constructor arguments | lookup in a table, then one case per branch for all settings |
| C166 | runs and files of an experiment (`M_Results`): arrays with undefined entries, one event per run, an interrupt after any assignment | invariant of the loop: the first entries of all arrays are the finished runs |
| C167 | object with owned data and numbered arrays of the caller (`M_GPAlias`); calls by value are `gp_add` of `M_GP` | invariant: shares only what was passed; induction over the history; writes to an object that shares nothing change nothing |
| C168 | checks of the program, then learner, model, utility, user and prior as steps that may stop (`M_Setup`, learners of `M_Config`) | case analysis over names; the named model is reached exactly if every step continues |
| C169 | binary64 of the ordinal probit (`M_FloatOrd`) | magnitude bounds through every operation; a product of halves underflows, 1 - cdf absorbs, exp overflows; products and sums in any order |
| C170 | values with infinities and NaN (`M_Special`) | comparisons with NaN are false; invariant of the loop over rows; argmax that stops at NaN |
| C171 | RBF kernel and factorisation of two points in binary64 (`M_FloatKern`) | symmetry of rounding; error bound for a sum in any order; error of the exponential from `z exp(-z)`; relative errors of the second pivot |
| C172 | arrays of plain numbers as points (`M_OneD`) | kernel objects that differ only in filled-in zero points give the same covariances and gradients (`M_OneDGrad`); simulation of the store of rows |
| C173 | fit of the linear model in binary64 (`M_FloatLin`) | relative errors of the probit argument; zero gradient and curvature; lower bound of the density |
| C174 | rating probit in binary64 (`M_FloatAbs`) | relative errors of link and parameters; size bounds of products and sums; flush of the density |
| C175 | analysis of the study data (`M_Study`) | a model observed through the data it holds; induction on choices and runs |
| C176 | line searches with missing values (`M_LineNaN`) | invariant: a quarter of the interval has a value; induction to the right end |
| C177 | pictures of a run (`M_Viz`) | index arithmetic of the grid, maximum of absolute values, case analysis of labels |
| C178 | names of recorded files (`M_Names`) | value of a list of digits, lexicographic order |
| C179 | plots of preferences (`M_Plot`) | induction over the pairs, every failure is an index |
| C180 | ratings from utilities (`M_RateScore`) | induction over the decision points |
| C181 | observations and uncertainties with numpy broadcasting (`M_GPNoise`) | every call that gives one value per point appends its readings; composition with C104 |
| C182 | answers turned upside down (`M_Fit`, `M_Mode`, `M_NormMode`) | every step of find_mode commutes with the change of signs; stationarity of the mode and the decreasing hazard rate for the refutation |
| C183 | assignments of hyper-parameters that fail half-way (`M_SetParam`) | induction over kernels: the parameters afterwards are the new entries followed by the rest of the old ones |
| C184 | periodic and linear kernels in binary64 (`M_FloatPer`) | monotone rounding, sums of values that are not negative in any order, bounds of PI by Machin's series, periodicity of sin |
| C185 | whole objects given ratings or grades, removals and refused calls after a fit (`M_Whole`) | invariant of the stored labels by induction over batches; a fitted model keeps its mark and its values when points change |
| C186 | `HumanChoiceUser2.obj`, `rate_obj` as functions of their first argument (`M_User`) | strict monotonicity of the means, intermediate value theorem, tails of the normal distribution function; exact arithmetic |
| C187 | `HumanChoiceUser2.obj`, `rate_obj` in binary64 (`M_FloatTune`) | one is absorbed by numbers from 2^54 on, so the quotient stays between 1/2 and 1; sums of such numbers in any order; error of a single chance at most 2^-47 and of the objective at most 2^-29; `exp`, `sqrt` and `ndtr` correctly rounded |
| C188 | `HumanChoiceUser.sampled_objective`, `rate_sampled_objective` (`M_Tune`) | the mean over independent draws from C148 and C149: squared miss plus the variance of the answers, which falls towards chance one |
| C189 | `sigmoid`, `PerfectUser.rate`, `HumanChoiceUser.rate` in binary64 (`M_FloatRate`) | every step is monotone, infinities included; the rounding errors of the steps add up; `exp` correctly rounded |
| C70-C71, C83 | `FakeFunction.py` | arrays of up to three dimensions as one inductive type; monotonicity as a relation lifted through numpy operations |
| C72-C73, C84-C90 | `synthetic_user.py`, `HumanChoiceUser2.py` | utilities are arbitrary functions; draws and optimiser results are arguments; connection to `pareto.py` and `sample_utility.py` |

## Assumptions per theorem

Output of `Print Assumptions`, as printed during the build.  N = `ClassicalDedekindReals.sig_not_dec`,
F = `ClassicalDedekindReals.sig_forall_dec`, E = `FunctionalExtensionality.functional_extensionality_dep`,
C = `Classical_Prop.classic` (all from the standard library); "closed" = closed under the global context.

* `T_AbsAcq.v`
  * C E F N: C137_select, C137_untrained, C137_nothing, C137_expected, C138_gain_partial, C138_code_partial, C138_exact, C138_same, C138_loglikelihood_refuted, C139_limits_refuted, C139_signs_partial, C139_expected
* `T_AbsInfo.v`
  * C E F N: C140_score, C140_positive, C140_select, C140_untrained, C141_worst_refuted, C141_order, C142_debugger_refuted, C142_some_points_refuted, C142_one_point_refuted, C142_one_point_score, C142_linear_refuted
* `T_AbsProbit.v`
  * C E F N: C45_monotone, C45_strict, C45_same_value, C45_repeated_refuted, C46_rating_last, C46_rating_refuted, C81_value, C81_gradient, C81_hessian, C82_grad_hyper, C82_W_dSigma, C82_W_dv_refuted, C82_W_dF_partial, C82_W_dF_refuted
  * E F N: C45_parameters, C45_mean_range, C45_mean
* `T_Acq.v`
  * C E F N: C94_symmetric, C94_shape, C95_self_partial, C95_loglikelihood_refuted, C96_range, C96_loglikelihood, C97_rho, C100_pair_partial, C100_greedy_partial, C100_loglikelihood_refuted, C103_same_partial
  * E F: C61_loop_is_vectorised, C61_threshold, C61_expected, C61_greedy_expected, C61_integrand, C61_representative_answers, C98_pair, C98_greedy, C98_uninformative, C99_greedy_is_pair, C99_answers, C100_exact_gain, C101_best_partial
  * E F N: C97_epic, C97_epic_opposite, C97_spearman, C97_spearman_same_order, C97_correlation, C103_swap, C103_missing_refuted
  * closed: C101_first_refuted, C102_sampled, C102_sampled_terminates, C102_stable_partial, C102_stable_small_refuted, C102_sampled_sizes, C102_stable_sizes, C102_unknown
* `T_Alias.v`
  * closed: C154_snapshot, C154_second, C154_copied, C154_first_refuted, C154_folded_refuted, C154_removed, C154_failed_refuted, C154_ordinal_refuted, C154_index_refuted
* `T_Config.v`
  * closed: C165_built, C165_built_refuted, C165_run, C165_unknown, C165_flags, C165_alignment, C165_class, C165_method, C165_alpha, C165_numbers, C165_switch, C165_rep, C165_rep_refuted, C165_ratings_refuted, C165_ratings, C165_perfect_refuted
* `T_Down.v`
  * closed: C159_exact, C159_small, C159_medoids_refuted, C159_default_refuted, C159_preferred, C159_preferred_refuted
* `T_Eval.v`
  * C E F N: C157_rho
  * E F N: C156_evaluated, C156_index_refuted, C156_chosen, C156_regret, C156_rank, C156_distinct, C156_ties_refuted, C156_accuracy, C156_shares, C156_full_marks, C157_range, C157_pearson, C157_same_order, C157_listed, C157_spearman_refuted
  * closed: C156_none_refuted
* `T_Fake.v`
  * C E F N: C70_logistic, C70_logistic_range, C70_min_log, C71_logistic, C71_min_log, C71_one_dimension, C83_logistic
  * E F: C70_linear, C70_linear_average, C70_squared, C70_weighted_max, C70_weighted_min, C71_weighted_max, C71_weighted_min, C71_list_refuted, C83_weighted_refuted
  * E F N: C70_squared_min_max, C71_squared_min_max_refuted
  * F: C71_linear, C71_squared, C71_mixture_refuted, C83_linear, C83_squared
* `T_FakeDim.v`
  * E F: C126_dims, C126_volume_refuted, C126_few_refuted, C126_bad_function
* `T_Fit.v`
  * C E F N: C108_value, C108_gradient, C108_hessian_partial, C108_hessian_refuted, C109_ascent_partial, C109_fixed_point, C109_ordinal_refuted, C110_mode, C110_unique, C111_gradient, C111_hessian_partial, C111_ordinal_refuted, C111_psd, C112_ascent_partial, C112_single_refuted, C113_best, C113_unique, C113_separable_refuted
  * E F: C114_untrained, C114_dominance, C114_agreement
* `T_FitAbs.v`
  * C E F N: C109_ratings_partial, C109_ratings_fixed_point, C109_outward, C109_rating_refuted
* `T_Float.v`
  * C E F N: C152_vector, C152_rows, C152_rows_refuted, C152_count_refuted, C153_nan, C153_selected, C153_best_refuted
* `T_FloatAbs.v`
  * C E F N: C174_parameters, C174_stored, C174_finite, C174_pull_refuted, C174_missing_stored_refuted, C174_missing_refuted
* `T_FloatKern.v`
  * C E F N: C171_symmetric, C171_matrix, C171_accurate, C171_near_refuted, C171_far_refuted, C171_length_refuted, C171_sigma_refuted, C171_factor, C171_factor_refuted, C171_real
* `T_FloatLin.v`
  * C E F N: C173_pull, C173_stuck_refuted, C173_label_refuted
* `T_FloatNorm.v`
  * C E F N: C164_range, C164_inside_refuted, C164_distinct_refuted, C164_finite_refuted
* `T_FloatOrd.v`
  * C E F N: C169_label, C169_likely, C169_ends, C169_middle_refuted, C169_bottom, C169_top_refuted, C169_few, C169_many_refuted, C169_sum
* `T_FloatPer.v`
  * C E F N: C184_symmetric, C184_periodic, C184_periodic_self, C184_length_refuted, C184_overflow_refuted, C184_period_refuted, C184_linear, C184_linear_self, C184_centre_refuted
* `T_FloatProbit.v`
  * C E F N: C163_ratio, C163_finite, C163_pull_refuted, C163_sigma_refuted
* `T_FloatRate.v`
  * C E F N: C189_order, C189_human, C189_accurate, C189_users, C189_best_refuted, C189_worst_refuted
* `T_FloatTune.v`
  * C E F N: C187_chance, C187_accurate, C187_pair, C187_objective, C187_rating, C187_rating_objective, C187_flat, C187_target_refuted
* `T_GP.v`
  * E F: C67_store
  * E F N: C67_prior_partial, C67_prior_mean_refuted, C68_interpolates, C68_any_training_inputs, C68_nonnegative, C69_chunks_partial, C69_noise_refuted, C104_posterior, C104_posterior_unique, C104_order, C105_variance, C106_total, C106_fails_iff, C106_duplicates, C107_fitted_values, C107_variance
* `T_GPAlias.v`
  * E F N: C167_predict_refuted
  * F: C167_snapshot, C167_second, C167_outputs, C167_first_refuted, C167_folded_refuted, C167_sigma_refuted
* `T_GPNoise.v`
  * E F: C181_kept, C181_one_point_refuted, C181_short_list_refuted, C181_one_output_refuted
  * E F N: C181_posterior, C181_unusable_refuted
  * F: C181_rejects, C181_rejects_outputs, C181_list_outputs_refuted, C181_failed
* `T_Gamma.v`
  * C E F N: C134_facts, C134_gamma, C134_density, C134_mean, C134_variance, C135_distribution, C135_density, C135_dominance, C135_strict
* `T_Hyper.v`
  * C E F N: C77_prior_gradient, C77_precision_refuted, C77_sigma
  * E F: C28_round_trip, C28_read_back, C28_too_short, C28_negative_bias_refuted, C28_two_ordinals_refuted, C28_breakpoints_refuted, C29_aligned_partial, C29_pairs_only_refuted, C29_ratings_only_refuted, C29_ordinal_refuted, C29_combination_refuted, C77_length, C77_ordinal_refuted
* `T_HyperFit.v`
  * C E F N: C162_success, C162_domain, C162_small, C162_repeated_refuted, C162_ordinal_refuted
* `T_HyperGrad.v`
  * C E F N: C115_likelihood, C115_objective, C116_likelihood_partial, C116_objective_refuted, C117_length_partial, C117_ordinal_refuted, C117_ordinal_error_refuted, C117_product_refuted, C117_no_probit_refuted, C118_value
  * E F: C118_determinant
* `T_HyperRun.v`
  * C E F N: C161_domain, C161_step, C161_boundary_refuted, C161_rollback_refuted, C161_combination_refuted
* `T_Info.v`
  * C E F N: C59_mutual_information, C59_range, C59_zero, C59_greedy, C60_default_refuted, C60_method_999_partial, C91_negative_refuted, C91_nonnegative_partial, C92_first_refuted
  * closed: C93_repeated_refuted, C93_in_range_partial
* `T_KFold.v`
  * closed: C09_kfold_partition, C09_kfold_returns, C10_kfold_bounded, C10_kfold_balanced, C11_kfold_nonempty_refuted, C11_kfold_nonempty_without_pairs, C11_kfold_nonempty_enough_points, C12_get_y
* `T_Kernel.v`
  * C E F N: C33_periodic_psd_refuted, C36_gradient_partial, C36_rbf_length, C36_rbf_length_refuted, C36_periodic_length_refuted, C36_periodic_period_refuted, C36_periodic_matrix_refuted, C76_prior_gradient, C76_prior_defined
  * E F N: C31_symmetric, C31_cov_transpose, C32_cov_psd, C32_call_psd, C32_zeroed_call_refuted, C32_zeroed_single_refuted, C33_periodic_1d_psd, C34_entries_partial, C34_zeroed_entries, C34_noise_refuted, C34_zeroed_refuted, C35_pinned, C35_call_refuted, C35_single_refuted, C35_default, C36_gradient_total, C36_zeroed_matrix_refuted, C37_sums, C37_products_refuted, C37_products_mixed
  * closed: C36_zeroed_refuted, C76_parameters
* `T_LineNaN.v`
  * E F: C176_examined, C176_inside, C176_short_steps_refuted, C176_missing_refuted, C176_end, C176_newton_refuted, C176_iterative, C176_iterative_inside, C176_same, C176_newton_same, C176_rules
* `T_MH.v`
  * C E F N: C143_balance, C143_stationary_finite, C143_converges_finite
  * E F N: C143_constant
* `T_MHR.v`
  * C E F N: C143_stationary, C143_unique, C147_mass_refuted, C147_stationary_refuted, C147_separable
  * E F N: C147_nodata
* `T_Mixed.v`
  * C E F N: C64_probability_range, C64_peak_decreasing, C64_monotone_refuted
  * E F: C63_rate_choose, C63_mixed_comparison_partial, C63_worse_pair_refuted, C63_tie_refuted, C66_first_calls_refuted, C66_stale_fit_refuted, C66_data_lost_refuted, C66_alignment_partial, C66_answers_partial, C75_equal_checking, C75_pairs_only
  * E F N: C64_rating_iff_draw, C65_mode_changes, C65_mode_final, C65_evaluation, C65_draw, C65_even
  * closed: C62_set_fixed, C62_alternating
* `T_Mode.v`
  * C E F N: C127_exists, C127_unique, C127_gap, C127_bounded, C127_standstill, C127_fixed_point, C128_equation, C128_likelihood, C128_some, C128_consistent, C128_supporting, C128_repeated, C128_balanced, C128_settled_equation, C128_settled, C129_comparison, C129_strict, C129_ordinal, C129_top, C129_bottom, C129_rating, C129_settled, C130_contrary, C130_exchanged, C130_order, C130_units, C130_settled_contrary, C130_settled_exchanged, C130_settled_order, C130_settled_units, C131_chain_refuted, C131_settled_refuted, C131_winner_partial, C131_settled_winner_partial, C132_mean, C132_settled, C132_one
* `T_Mode2.v`
  * C E F N: C133_step, C133_stop, C144_predictions, C144_order
* `T_Names.v`
  * closed: C178_distinct, C178_kinds, C178_same_digits, C178_first_ten, C178_order_refuted, C178_padded, C178_digits
* `T_NormMode.v`
  * C E F N: C160_range, C160_mode_refuted, C160_contradiction_refuted, C160_single_refuted
  * E F N: C160_order, C160_order_refuted
* `T_Normal.v`
  * C E F N: C38_distribution, C38_tail, C38_clipped, C38_mills
* `T_OneD.v`
  * C E F N: C172_first_use_refuted
  * E F: C172_simplest_sum, C172_simplest
  * E F N: C172_kernels, C172_gp, C172_failed_refuted, C172_widths_refuted
  * F: C172_linear_refuted, C172_linear_rows
  * closed: C172_store, C172_no_mixture, C172_pareto_refuted, C172_vector_refuted
* `T_OneDGrad.v`
  * E F N: C172_gradients, C172_gradient_mixture_refuted
* `T_OrdProbit.v`
  * C E F N: C43_distribution, C43_shift, C43_zero_label, C43_vector_refuted, C44_gradient, C44_log_likelihood, C44_unlikely_partial, C44_middle_partial, C44_narrow_refuted, C44_W_refuted, C46_ordinal_last, C46_ordinal_refuted, C47_vector_refuted
  * E F: C43_set_hyper, C43_ordered, C47_scalar
  * E F N: C43_probability
* `T_PBest.v`
  * C E F N: C120_preference_gp, C121_independent_refuted, C121_independent_range, C121_independent_monotone, C122_two, C122_two_order, C123_defined, C123_score, C123_bound, C123_duplicate, C123_choice, C123_first, C123_deviation_refuted
  * E F: C119_chances, C119_never, C119_always, C119_dominated, C122_differences, C122_covariance, C123_conditional, C124_covariance, C124_divisors, C125_linear, C125_stale_refuted, C126_sums, C126_area_refuted, C126_calc_refuted, C126_calc_first_refuted, C126_dimension_refuted
  * E F N: C120_linear_refuted, C120_gp_refuted, C121_independent_partial, C121_switch_refuted, C121_switch_two_partial, C121_default, C122_chances, C124_choice, C126_static_refuted, C126_decay
  * F: C122_means, C125_gp, C125_stored, C125_unknown
* `T_Pairs.v`
  * closed: C01_get_dk, C01_ranked_truthful, C01_fake_truthful, C01_preference, C02_gen_pairs, C03_ranked_complete, C03_ranked_acyclic, C03_fake_complete, C04_ranking_refuted, C04_ranking_built
* `T_Pareto.v`
  * closed: C05_pareto_exact, C06_pareto_cover, C06_pareto_mask
* `T_Plot.v`
  * E F: C179_plane, C179_flat, C179_stale_refuted, C179_column_refuted, C179_large, C179_given_large_refuted, C179_ratings
  * closed: C179_given_refuted
* `T_PrefProbit.v`
  * C E F N: C39_agrees, C39_grows, C39_opposite, C39_preference, C40_gradient, C40_hessian, C41_psd, C41_newton, C41_concave, C41_clipped_refuted, C42_grad_hyper, C42_W_dHyper, C42_W_dF_partial, C42_W_dF_refuted
  * E F N: C39_all_pairs, C41_symmetric, C41_row_sums
* `T_Prior.v`
  * C E F N: C136_total, C136_mean, C136_variance, C136_mode
* `T_Prob.v`
  * C E F N: C146_two_order_partial
  * E F N: C146_two_partial
  * F: C146_candidate_refuted, C146_select_refuted, C146_endless_refuted, C146_other_models_refuted
  * closed: C146_same_selection
* `T_RandPrior.v`
  * closed: C155_box, C155_kept, C155_corners, C155_single_refuted, C155_two_refuted
* `T_RateScore.v`
  * E F: C180_scores, C180_bin, C180_low_refuted, C180_within_refuted
* `T_Results.v`
  * closed: C166_saved, C166_saved_refuted, C166_folder, C166_dir, C166_dir_refuted, C166_flag_refuted
* `T_Sampling.v`
  * closed: C07_unique_sets, C08_sampling_terminates_refuted, C08_binom_counts, C08_sampling_terminates_feasible
* `T_Search.v`
  * E F: C48_binary_inside, C48_binary_quadratic, C48_iterative_best, C48_grid, C48_sentinel_refuted, C49_unimodal_partial, C49_concave_refuted, C79_positive, C79_symmetric, C79_mode, C79_constant_refuted, C79_zero_refuted, C80_binary, C80_iter, C80_stationary, C80_ascent_refuted
  * E F N: C78_hyper_search
  * closed: C50_find_mode, C50_linear_optimize, C80_default_refuted
* `T_Select.v`
  * E F N: C51_ucb_answers, C53_ucb_learner_sorted
  * closed: C51_selection_is_good, C51_number, C51_fails_only_without_enough_candidates, C51_learners_answer, C52_preferred_first, C53_best_learner_sorted, C53_worst_learner_sorted, C53_best_learner_sorted_in_blocks, C54_best_candidate_first, C55_not_selected_partial, C55_not_selected_refuted, C56_pairs_partial, C56_count_refuted, C56_exclusions_refuted, C56_termination_refuted, C57_preferred_set, C57_indices_valid_partial, C57_indices_valid_refuted, C58_best_fresh_pair, C58_all_selected_refuted
* `T_Select2.v`
  * closed: C51_informed
* `T_SetParam.v`
  * C E F N: C183_picture_refuted
  * closed: C183_enough, C183_short_refuted, C183_same
* `T_Setup.v`
  * closed: C168_named, C168_starts, C168_checked, C168_user_refuted, C168_hyper_refuted, C168_ignored_refuted, C168_prior_refuted
* `T_Special.v`
  * closed: C170_infinite, C170_later, C170_first_refuted, C170_lost_refuted, C170_answers, C170_best, C170_worst, C170_nan_refuted
* `T_Store.v`
  * closed: C18_labels_in_range, C18_pairs_in_range_all_calls, C19_add_appends, C19_add_pairs, C19_add_ordinals, C19_add_ratings, C20_pareto_pairs_sound, C20_pareto_pairs_cover, C21_pareto_order_refuted, C21_pareto_order_partial, C22_ratings_validated, C22_ordinals_validated, C22_stored_ratings_usable, C23_rejected_add_refuted, C23_rejected_add_labels, C24_remove_keeps_pairs, C25_remove_keeps_ratings_refuted, C25_remove_keeps_ratings_partial, C26_prior_points_refuted, C26_later_refuted, C26_prior_points_partial, C27_reset_is_fresh, C27_reset_same_outcomes, C30_predictions_fresh, C74_rejected_add_blocks_predictions_refuted, C74_stale_after_remove_refuted, C74_failed_search_blocks_predictions_refuted
* `T_StoreFail.v`
  * closed: C74_unfitted_refuted
* `T_Study.v`
  * E F: C175_accuracy, C175_training, C175_long_order, C175_fresh, C175_ragged_refuted, C175_broadcast_refuted, C175_short_order_refuted, C175_untrained_refuted
  * E F N: C175_report, C175_spread_refuted
  * F: C175_sum_model
  * closed: C175_models
* `T_Train.v`
  * closed: C158_recorded, C158_runs, C158_agrees, C158_mark, C158_all_correct, C158_perfect, C158_tie_refuted, C158_ranking_refuted, C158_perfect_refuted, C158_single_refuted, C158_human
* `T_Tune.v`
  * C E F N: C148_mean, C148_accept, C148_mono, C148_strict, C148_range, C148_gap, C148_stored_refuted, C148_single_refuted, C149_any, C149_accept, C149_chance, C149_pairs, C149_range, C149_mono, C149_strict, C149_integral, C149_exists, C149_objective, C149_threshold, C149_least, C149_falls, C149_falls_strict, C149_lead, C150_probit, C151_value, C151_zero
  * E F N: C150_unique
* `T_TuneBias.v`
  * C E F N: C188_mean, C188_near, C188_rational_refuted, C188_single_refuted, C188_sigma_refuted
* `T_Turned.v`
  * C E F N: C182_mode, C182_fit, C182_fit_normalised, C182_derivatives, C182_noise, C182_default, C182_positive_refuted, C182_ordinal_refuted, C182_ordinal_ends_refuted, C182_ordinal
  * E F N: C182_predict
* `T_User.v`
  * C E F N: C72_strict_utilities, C72_rating, C73_calibration, C73_increasing, C73_user, C73_constant_refuted, C84_always_fixed, C84_learn_beta_refuted, C88_rating_ordered, C89_objective_partial, C89_objective_refuted, C90_rating_objective
  * E F: C72_choice, C72_matrix, C72_pareto, C72_get_pareto, C72_pairs, C86_tuning, C86_failure_refuted
  * E F N: C88_choice, C88_rating, C84_new_user
  * closed: C85_sample_Qs, C85_number, C87_rows, C87_rows_refuted
* `T_UserTune.v`
  * C E F N: C186_rating_valley, C186_rating_root, C186_rating_edge, C186_pair_valley_partial, C186_pair_root_partial, C186_pair_refuted
  * E F N: C186_pair_value
* `T_Util.v`
  * C E F N: C14_ranks, C16_metropolis, C17_log_pdf, C17_derivative, C17_negative, C17_clipped_derivative_refuted
  * E F: C13_normalize
  * E F N: C14_choice_distribution, C14_shift_invariant, C14_batch_rows, C15_sample_interval, C15_samples, C16_length
* `T_Viz.v`
  * E F: C177_picture, C177_covers, C177_default_refuted, C177_scaled, C177_zero_refuted, C177_arrow, C177_label_refuted
  * E F N: C177_band
  * closed: C177_no_prior, C177_shown_refuted
* `T_Whole.v`
  * C E F N: C145_predict, C145_reproducible, C145_reset, C145_once
* `T_Whole2.v`
  * C E F N: C185_ratings, C185_grades, C185_removed_refuted, C185_refused_refuted

## Code modelled, file by file

Paths are relative to `/repo/src/lop`.  A function not named here is not modelled.

| file | modelled | not modelled |
|------|----------|--------------|
| `active_learning/AbsAcquisition.py` | `pq_integrand`, `fast_sum_Q` (`M_Acq`), `select_greedy` (`M_AbsAcq`) | constructor, the quadrature routine itself (an argument with an error bound) |
| `active_learning/AbsBayesInfo.py` | `select_greedy`, `integrand`, `p_q_f_B_unorm`, shapes in `calc_one_time` (`M_AbsInfo`) | the debugger (an argument tells whether it is left), the quadrature (an argument) |
| `active_learning/AcquisitionBase.py` | `get_representative_Q`, `alignment`, `alignment_between`, `set_samples`, `unset_samples` (`M_Acq`), `get_samples_from_model` (`M_PBest`) | - |
| `active_learning/AcquisitionSelection.py` | all scores and both selections (`M_Acq`) | numba compilation |
| `active_learning/ActiveLearner.py` | `select`, `get_prefered_set_of_pts`, `select_best`, `select_greedy_k`, `pick_pair_from_metric` (`M_Select`), `p_B_pref_gp`, `p_B_pref_linear` (`M_PBest`) | - |
| `active_learning/BayesInfoGain.py` | `calc_H_B_Q`, `select_greedy`, `select_pair` (`M_Info`), `get_p_B_probit` (`M_PBest`) | - |
| `active_learning/BestLearner.py`, `RandomLearner.py`, `UCBLearner.py`, `GV_UCBLearner.py` | `select_greedy` (`M_Select`, `M_UCB`; with infinities and NaN `M_Special`; UCB for linear models and GV_UCB in `M_PBest`) | - |
| `active_learning/MutualInfoLearner.py` | all (`M_Info`) | - |
| `active_learning/MixedStrategy.py`, `MixedTypeDecision.py`, `RateChooseLearner.py` | the decisions and their state (`M_Mixed`) | the inner learners (arguments) |
| `active_learning/ProbabilityLearner.py` | `select_greedy` (`M_Prob`) | printing, the plot, the debugger (an argument tells whether it is left) |
| `kernels/*.py` | all (`M_Kernel`), `RBF_kern.cov` (`M_FloatKern`), `PeriodicKern.cov` and `LinearKern.cov` (`M_FloatPer`) in double precision, 1-d inputs of `cov` (`M_OneD`) and of `cov_gradient` (`M_OneDGrad`), random draws as arguments | - |
| `models/GP.py` | all (`M_GP`, 1-d inputs `M_OneD`), the factorisation for two points in double precision (`M_FloatKern`), arrays kept by reference (`M_GPAlias`), broadcasting of length-one arrays in `add` (`M_GPNoise`) | - |
| `models/Model.py` | `predict_large`, `select_best` through the models | abstract methods |
| `models/PreferenceGP.py` | `predict`, `predict_large` (`M_GP`), `derivatives`, `likli_f`, gradient and Hessian of `find_mode` (`M_Fit`), `find_mode`, `optimize`, `hyperparameter_search` as loops (`M_Search`), `find_mode` with comparisons as a whole (`M_Mode`), with normalisation (`M_NormMode`), the update of the hyper-parameters (`M_HyperRun`), `optimize` with hyper-parameters as a whole (`M_HyperFit`), the object with its store, fit and predictions over a history of calls (`M_Whole`), hyper-parameters (`M_Hyper`), `likli_f_hyper`, `grad_likli_f_hyper`, `hyperparameter_obj`, `hyperparamter_obj_grad` (`M_HyperGrad`), `visualize_hyperparameter` up to its failure (`M_SetParam`) | the drawing in `visualize_hyperparameter`, never reached |
| `models/PreferenceLinear.py` | `predict`, `derivatives`, `loss_func` (`M_Fit`), `optimize` as a loop (`M_Search`), all of it with comparisons in binary64 (`M_FloatLin`) | - |
| `models/PreferenceModel.py` | data store (`M_Store`, with shared arrays `M_Alias`, random priors `M_RandPrior`, 1-d points `M_OneD`), hyper-parameters (`M_Hyper`), line searches and Newton update (`M_Search`, with missing values `M_LineNaN`), `plot_preference` (`M_Plot`), `log_likelyhood_training` (`M_Fit`) | - |
| `probits/PreferenceProbit.py`, `ProbitBase.py` | all (`M_PrefProbit`, `M_Normal`, `M_Hyper`), derivatives in double precision (`M_FloatProbit`) | printing |
| `probits/OrdinalProbit.py` | all (`M_OrdProbit`, `M_Hyper`; in binary64 `M_FloatOrd`) | printing |
| `probits/AbsBoundProbit.py` | all (`M_AbsProbit`, `M_Hyper`, `M_Beta`; derivatives in binary64 `M_FloatAbs`) | printing |
| `utilities/FakeFunction.py` | linear, squared, logistic, weighted min/max, min-log, mixture and the base class (`M_Fake`), `FakeSinExp`, `FakeStaticSin`, `FakeIntegrate` (`M_Fake2`, in any number of dimensions `M_FakeDim`) | - |
| `utilities/HumanChoiceUser2.py`, `synthetic_user.py` | users and calibration (`M_User`), ratings in double precision (`M_FloatRate`), the tuning objectives (`M_Tune`, `M_User`, in double precision `M_Float`, `M_FloatTune`) | the optimiser, `sampled_objective2` (undefined name) |
| `utilities/gamma_dist.py`, `human_choice_model.py`, `mcmc_sampling.py` | all (`M_Util`) | - |
| `utilities/pareto.py`, `preference_pairs.py`, `sample_utility.py`, `training_utility.py` | all (`M_Pareto`, `M_Special`, `M_Pairs`, `M_Sampling`, `M_KFold`, `M_Util`, `M_FloatNorm`) | - |
| `utilities/probability_utility.py` | `calc_cdf` (`M_PBest`) | the routines of scipy and approxcdf it calls (arguments) |
| `experiments/experiment_helper.py` | `evaluation` (`M_Eval`), the loop of `train_and_eval` (`M_Train`), `get_active_learner` (`M_Config`), `get_model`, `get_fake_func`, `get_synth_user` and the set-up (`M_Setup`), `downsample_hull`, `downsample_kmed_rand` and the choice between them (`M_Down`), names of recorded states (`M_Names`), `rating_score_from_fake_f` (`M_RateScore`) | data files, plots |
| `experiments/GP_visualization.py` | grid, scaling, points, arrows, regret band (`M_Viz`), file names (`M_Names`) | drawing by matplotlib |
| `experiments/single_experiment.py` | check of the selector (`M_Config`), of the other options (`M_Setup`), runs, results file and folder (`M_Results`) | progress output |
| `other/study_analysis_2022/read_study.py` | `train_eval`, `eval_model`, `process_all_data`, the numbers of the report (`M_Study`) | reading of the files, plots, script arguments |

## Not modelled

Drawing by matplotlib, printing and `pdb` calls, numba compilation, performance, rounding outside the parts named
`M_Float*` (everything else is in exact real arithmetic), the internals of scipy/numpy linear algebra and optimisers,
convergence of Newton/gradient searches beyond what C109, C127, C133 and C144 say, and the example and experiment scripts
beyond the functions in the table.
