{"id": "C01", "title": "Preference pairs encode the observed values", "statement": "Every pair produced by get_dk / preference / generate_fake_pairs / ranked_pairs_from_fake names two different points, and its sign is -1 exactly when the first named point has value >= the second, and 1 exactly when its value is strictly smaller.", "quantifier": "all value vectors (any length, ties included), all reference indices", "why_tests_cant": "Ties, every length and every permutation of values would have to be enumerated; tests sample one fake function on one grid.", "anchors": ["src/lop/utilities/preference_pairs.py:get_dk", "src/lop/utilities/preference_pairs.py:preference", "src/lop/utilities/preference_pairs.py:generate_fake_pairs", "src/lop/utilities/preference_pairs.py:ranked_pairs_from_fake"]}
{"id": "C02", "title": "A choice among alternatives becomes exactly the pairs the chosen index wins", "statement": "gen_pairs_from_idx(best, indices) returns, in the order of indices, exactly one pair (-1, best, i) for every listed i different from best, and nothing else.", "quantifier": "all best indices and all index lists, with duplicates and with best absent or repeated", "why_tests_cant": "Unbounded list length and arbitrary repetition.", "anchors": ["src/lop/utilities/preference_pairs.py:gen_pairs_from_idx"]}
{"id": "C03", "title": "A full ranking from values is complete, irredundant and consistent", "statement": "ranked_pairs_from_fake on n points returns n(n-1)/2 pairs, each unordered pair of distinct points exactly once; generate_fake_pairs(pair_i) returns n-1 pairs, one against each other point; the preferences returned by ranked_pairs_from_fake can never form a cycle, also when values tie.", "quantifier": "all numbers of points, all value vectors", "why_tests_cant": "Completeness and acyclicity are statements about all pairs of an arbitrarily long list.", "anchors": ["src/lop/utilities/preference_pairs.py:ranked_pairs_from_fake", "src/lop/utilities/preference_pairs.py:generate_fake_pairs"]}
{"id": "C04", "title": "generate_ranking_pairs delivers the ranking pairs it builds", "statement": "generate_ranking_pairs(X, real_f) returns a list of pairs that can be handed to add.", "quantifier": "all candidate arrays with at least one point", "why_tests_cant": "A single run shows one input; the claim is that no input ever yields a list.", "anchors": ["src/lop/utilities/preference_pairs.py:generate_ranking_pairs"]}
{"id": "C05", "title": "get_pareto returns exactly the Pareto front, one index per distinct point", "statement": "get_pareto(values) terminates and returns, in ascending order, exactly the indices i such that no row weakly dominates row i while being strictly better in some coordinate, and no earlier row equals row i.", "quantifier": "all matrices: any number of rows, any number of columns, duplicates included", "why_tests_cant": "The filtering loop renumbers rows as it goes; correctness for every interleaving of dominated, equal and incomparable rows needs an invariant.", "anchors": ["src/lop/utilities/pareto.py:get_pareto"]}
{"id": "C06", "title": "get_pareto covers the input and agrees with its mask form", "statement": "Every input row is <= some returned row in all coordinates; no returned row is <= another returned row; return_mask=True gives the boolean mask whose true positions are the returned indices.", "quantifier": "all matrices", "why_tests_cant": "Universal over all pairs of rows of an unbounded matrix.", "anchors": ["src/lop/utilities/pareto.py:get_pareto"]}
{"id": "C07", "title": "sample_unique_sets returns distinct well-formed subsets", "statement": "Whatever the random draws, if sample_unique_sets(s, num_sets, size_set) returns for integer s, it returns exactly num_sets rows, pairwise different, in lexicographic order, each strictly ascending of length size_set with entries in range(s).", "quantifier": "all s, num_sets, size_set and all draw sequences, any number of refill rounds", "why_tests_cant": "Depends on every possible random history of the refill loop.", "anchors": ["src/lop/utilities/sample_utility.py:sample_unique_sets", "src/lop/utilities/sample_utility.py:sample_unique_sets_fast", "src/lop/utilities/sample_utility.py:sample_nonunique_sets"]}
{"id": "C08", "title": "sample_unique_sets terminates", "statement": "sample_unique_sets returns for every request, provided the random source keeps producing new subsets.", "quantifier": "all s, num_sets, size_set and all draw sequences", "why_tests_cant": "Non-termination cannot be observed by a test; it is a statement about infinitely many rounds.", "anchors": ["src/lop/utilities/sample_utility.py:sample_unique_sets_fast"]}
{"id": "C09", "title": "k_fold_x_y partitions the data", "statement": "When k_fold_x_y returns folds, it returns exactly the (clamped) requested number of folds, each sorted ascending, and every training index lies in exactly one fold.", "quantifier": "all data sizes, all pair lists, all k, all random draws and shuffles", "why_tests_cant": "The construction is randomised and data dependent; partitioning must hold for every shuffle.", "anchors": ["src/lop/utilities/training_utility.py:k_fold_x_y"]}
{"id": "C10", "title": "k_fold_x_y fold sizes are bounded, and balanced without pairs", "statement": "No fold exceeds ceil(N/k) elements; when there are no relative pairs the sizes of any two folds differ by at most one.", "quantifier": "all data sizes, pair lists, k and random draws", "why_tests_cant": "Needs an invariant of the argmin filling loop for every draw sequence.", "anchors": ["src/lop/utilities/training_utility.py:k_fold_x_y"]}
{"id": "C11", "title": "k_fold_x_y never returns an empty fold", "statement": "Every returned fold contains at least one training index.", "quantifier": "all data sizes, pair lists, k and random draws", "why_tests_cant": "Needs the right combination of connectivity and draws; random tests rarely hit it.", "anchors": ["src/lop/utilities/training_utility.py:k_fold_x_y"]}
{"id": "C12", "title": "Restricting labels to a subset keeps their meaning", "statement": "get_y_with_idx(y, indices) keeps, in order, exactly the labels all of whose points are in indices, and renumbers them so that entry j of the subset is the same training point as before; a label family with nothing left becomes None.", "quantifier": "all label lists of every type, all index lists with in-range labels", "why_tests_cant": "Relational statement over arbitrary index lists and label lists.", "anchors": ["src/lop/utilities/training_utility.py:get_y_with_idx"]}
{"id": "C13", "title": "normalize_0_1 lands strictly inside (0,1) and preserves order", "statement": "For eps > 0 every output of normalize_0_1 is strictly between 0 and 1, x_i < x_j iff out_i < out_j, equal inputs give equal outputs, and the extreme values map to eps/(range+2eps) and 1 minus that; results are therefore accepted by add(..., type=\"abs\").", "quantifier": "all non-empty real vectors and all eps > 0, constant vectors included", "why_tests_cant": "Continuum of inputs.", "anchors": ["src/lop/utilities/training_utility.py:normalize_0_1"]}
{"id": "C14", "title": "p_human_choice is a well-behaved choice distribution", "statement": "For every reward vector the result is strictly positive, sums to 1, is unchanged by adding a constant to all rewards, ranks options by reward when p > 0, and the odds of two options depend on their reward difference only; for a batch each row is the distribution of that row alone.", "quantifier": "all non-empty reward vectors / matrices and all real p", "why_tests_cant": "Continuum of inputs; the batch form shifts by a global maximum, so row independence is not syntactic.", "anchors": ["src/lop/utilities/human_choice_model.py:p_human_choice"]}
{"id": "C15", "title": "sample_human_choice draws a valid option with the modelled probability", "statement": "For every uniform draw u in [0,1) the sampled index is a valid option, and the set of u selecting option i is an interval of length p_human_choice[i].", "quantifier": "all reward vectors, all p, all draws", "why_tests_cant": "A statement about the measure of a set of random draws.", "anchors": ["src/lop/utilities/human_choice_model.py:sample_human_choice"]}
{"id": "C16", "title": "metropolis_hastings returns the requested number of genuine chain states", "statement": "The sampler returns exactly num_samples states; the states are the chain after the burn-in; each is the initial point or an accepted proposal, consecutive ones are equal or linked by an accepted proposal, and a proposal with no smaller likelihood is always accepted.", "quantifier": "all likelihood functions, proposal streams, threshold streams in [0,1), lengths and burn-ins", "why_tests_cant": "Must hold for every random history.", "anchors": ["src/lop/utilities/mcmc_sampling.py:metropolis_hastings"]}
{"id": "C17", "title": "Gamma prior helpers agree with each other", "statement": "For x >= 1e-6, log_pdf_gamma is the logarithm of pdf_gamma, and for x > 1e-6 d_log_pdf_gamma is its derivative; negative arguments have log-density -infinity.", "quantifier": "all shapes k, scales theta > 0 and all x, for any positive normalising function", "why_tests_cant": "Derivative identity over a continuum.", "anchors": ["src/lop/utilities/gamma_dist.py:pdf_gamma", "src/lop/utilities/gamma_dist.py:log_pdf_gamma", "src/lop/utilities/gamma_dist.py:d_log_pdf_gamma"]}
{"id": "C18", "title": "Stored labels always refer to stored points", "statement": "After any sequence of add (all three label types, with or without automatic Pareto pairs) and reset calls, accepted or rejected, every index in every stored label is smaller than the number of stored points, provided each call passed labels about the points it passed; for pair labels this also holds when add_prior and remove_without_reference calls are mixed in.", "quantifier": "all operation histories", "why_tests_cant": "Invariant over unbounded histories mixing label types.", "anchors": ["src/lop/models/PreferenceModel.py:add", "src/lop/models/PreferenceModel.py:reset"]}
{"id": "C19", "title": "add only appends and shifts relative labels to the right points", "statement": "A successful add keeps every previously stored point and label unchanged, appends the new points, and the appended labels denote the points the caller named: a pair (d,u,v) given about the new batch is stored about exactly those two points.", "quantifier": "all histories, all batches", "why_tests_cant": "Relational statement about every prior state.", "anchors": ["src/lop/models/PreferenceModel.py:add"]}
{"id": "C20", "title": "Generated Pareto pairs are sound and cover new dominating points", "statement": "With pareto_pairs on, every automatically generated pair says that a point strictly larger in all coordinates wins, and after an add every new point that strictly dominates any stored point (old or new) has that pair recorded.", "quantifier": "all histories and batches", "why_tests_cant": "Universal over all pairs of points of all histories.", "anchors": ["src/lop/models/PreferenceModel.py:add"]}
{"id": "C21", "title": "Pareto pairs do not depend on insertion order", "statement": "With pareto_pairs on, every strict domination between two stored points is recorded as a pair, whichever of the two points was added first.", "quantifier": "all histories", "why_tests_cant": "Needs a pair of histories differing in order.", "anchors": ["src/lop/models/PreferenceModel.py:add"]}
{"id": "C22", "title": "Ratings are validated and clamped", "statement": "Adding ratings: any value outside [0,1] raises; otherwise the stored ratings all lie in [0.001,0.999], are order preserving images of the inputs and equal to them when already inside; ordinal labels <= 0 raise.", "quantifier": "all rating vectors", "why_tests_cant": "Continuum of inputs.", "anchors": ["src/lop/models/PreferenceModel.py:add"]}
{"id": "C23", "title": "A rejected add leaves the model unchanged", "statement": "If add raises or refuses its labels, the stored points, labels and the \"needs re-optimisation\" flag are the same as before the call.", "quantifier": "all states, all invalid calls", "why_tests_cant": "Failure atomicity ranges over all states and all bad inputs.", "anchors": ["src/lop/models/PreferenceModel.py:add"]}
{"id": "C24", "title": "remove_without_reference keeps every pair about the same two points", "statement": "After remove_without_reference, the stored pairs are the same in number, order and sign, and each denotes the same two points as before; exactly the points mentioned by some pair remain, in their old order.", "quantifier": "all stores with at least one relative pair", "why_tests_cant": "Index compaction must be right for every pattern of referenced and unreferenced points.", "anchors": ["src/lop/models/PreferenceModel.py:remove_without_reference"]}
{"id": "C25", "title": "remove_without_reference keeps ratings attached to their points", "statement": "After remove_without_reference every rating and ordinal label still refers to the point it was given for.", "quantifier": "all stores", "why_tests_cant": "Quantifies over all label mixtures.", "anchors": ["src/lop/models/PreferenceModel.py:remove_without_reference"]}
{"id": "C26", "title": "get_prior_pts returns the prior points", "statement": "After add_prior the reported prior points are exactly the surviving points that add_prior inserted.", "quantifier": "all stores and prior point batches", "why_tests_cant": "Depends on which earlier points get removed.", "anchors": ["src/lop/models/PreferenceModel.py:add_prior", "src/lop/models/PreferenceModel.py:get_prior_pts"]}
{"id": "C27", "title": "reset gives back a fresh data store", "statement": "After reset, any sequence of later calls stores exactly the same points and labels as on a newly built model.", "quantifier": "all histories before and after the reset", "why_tests_cant": "Quantifies over all histories.", "anchors": ["src/lop/models/PreferenceModel.py:reset"]}
{"id": "C28", "title": "Hyper-parameter vector round trip", "statement": "set_hyper followed by get_hyper returns the vector that was set (when its length is that of get_hyper), for every combination of label types present and for nested sum/product kernels; setting the value just read changes nothing that get_hyper reports.", "quantifier": "all label-type combinations, all kernel expressions, all parameter vectors", "why_tests_cant": "Structural induction over kernel expressions and all subsets of label types.", "anchors": ["src/lop/models/PreferenceModel.py:get_hyper", "src/lop/models/PreferenceModel.py:set_hyper", "src/lop/models/PreferenceGP.py:get_hyper", "src/lop/models/PreferenceGP.py:set_hyper", "src/lop/kernels/KernelFunc.py:DualKern"]}
{"id": "C29", "title": "Random hyper-parameters go to the parameter they were drawn for", "statement": "randomize_hyper assigns to each hyper-parameter in use the value sampled from that parameter's own prior.", "quantifier": "all label-type combinations and kernels", "why_tests_cant": "Sampling hides misalignment; tests only see \"no crash\".", "anchors": ["src/lop/models/PreferenceGP.py:randomize_hyper", "src/lop/models/PreferenceGP.py:set_hyper"]}
{"id": "C30", "title": "Predictions never use parameters fitted before the last accepted label", "statement": "After any history of successful add / reset / predict calls, a prediction on a non-empty store uses a latent vector fitted to exactly the stored data.", "quantifier": "all histories", "why_tests_cant": "Laziness invariant over histories.", "anchors": ["src/lop/models/PreferenceGP.py:predict", "src/lop/models/PreferenceModel.py:add", "src/lop/models/PreferenceGP.py:optimize"]}
{"id": "C31", "title": "Kernels are symmetric", "statement": "k(u,v) = k(v,u) for every kernel built from RBF, linear, periodic and zeroed RBF kernels with + and *, to any nesting depth.", "quantifier": "all kernel expressions, parameters and points", "why_tests_cant": "Structural induction plus a continuum of points.", "anchors": ["src/lop/kernels/KernelFunc.py", "src/lop/kernels/RBF_kern.py", "src/lop/kernels/LinearKern.py", "src/lop/kernels/PeriodicKern.py", "src/lop/kernels/RBF_kern_zeroed.py"]}
{"id": "C32", "title": "Kernels are positive semidefinite", "statement": "For every finite list of points and every weight vector the quadratic form of the covariance is >= 0, for RBF and linear kernels in any dimension, periodic kernels in one dimension, zeroed RBF, and all sums and products of them.", "quantifier": "all finite point sets of any size, all weights, all kernel expressions", "why_tests_cant": "Infinitely many matrices of every size.", "anchors": ["src/lop/kernels/KernelFunc.py:DualKern", "src/lop/kernels/RBF_kern.py", "src/lop/kernels/LinearKern.py", "src/lop/kernels/PeriodicKern.py", "src/lop/kernels/RBF_kern_zeroed.py"]}
{"id": "C33", "title": "The periodic kernel is a covariance in every dimension", "statement": "PeriodicKern yields a positive semidefinite matrix for points of any dimension.", "quantifier": "all finite point sets", "why_tests_cant": "A counterexample needs specific geometry; random tests with short length scales do not show it.", "anchors": ["src/lop/kernels/PeriodicKern.py:__call__"]}
{"id": "C34", "title": "Covariance matrices agree with pointwise evaluation", "statement": "Entry (i,j) of cov(X,Y) equals k(X_i,Y_j), apart from observation noise on the diagonal of cov(X,X).", "quantifier": "all point lists, all kernels", "why_tests_cant": "Universal over inputs; the shipped test uses X and Y with different first points only.", "anchors": ["src/lop/kernels/KernelFunc.py:cov", "src/lop/kernels/RBF_kern.py:cov", "src/lop/kernels/RBF_kern_zeroed.py:cov", "src/lop/kernels/LinearKern.py:cov", "src/lop/kernels/PeriodicKern.py:cov"]}
{"id": "C35", "title": "The zeroed RBF kernel pins the reference point", "statement": "The covariance of the zero point with every point is 0 (up to noise), so a zero-mean process takes the value 0 there.", "quantifier": "all zero points, parameters and points", "why_tests_cant": "Continuum of inputs.", "anchors": ["src/lop/kernels/RBF_kern_zeroed.py:cov", "src/lop/kernels/RBF_kern_zeroed.py:__call__"]}
{"id": "C36", "title": "Kernel gradients are the derivatives of the kernel", "statement": "Each component returned by gradient / cov_gradient is the partial derivative of k(u,v) with respect to the corresponding parameter, for all shipped kernels and their sums and products.", "quantifier": "all kernels, all parameters, all points", "why_tests_cant": "Analytic identity over a continuum; shipped tests only look at shapes and signs.", "anchors": ["src/lop/kernels/RBF_kern.py:gradient", "src/lop/kernels/LinearKern.py:gradient", "src/lop/kernels/PeriodicKern.py:gradient", "src/lop/kernels/KernelFunc.py:DualKern.gradient"]}
{"id": "C37", "title": "Product kernels return one gradient matrix per parameter", "statement": "cov_gradient of a sum or product kernel returns as many matrices as the kernel has parameters, in the order of get_param.", "quantifier": "all kernel expressions", "why_tests_cant": "Structural statement over all nestings.", "anchors": ["src/lop/kernels/KernelFunc.py:DualKern.cov_gradient"]}
{"id": "C38", "title": "The normal CDF used by the probits is a CDF", "statement": "The standard normal distribution function (integral of the density used in the code) is strictly increasing, strictly between 0 and 1, symmetric, tends to 0 and 1, and has the density as derivative; the clipped version is monotone and in (0,1).", "quantifier": "all reals", "why_tests_cant": "Analytic facts about an integral.", "anchors": ["src/lop/probits/ProbitBase.py:std_norm_pdf", "src/lop/probits/ProbitBase.py:std_norm_cdf"]}
{"id": "C39", "title": "Preference likelihoods are probabilities consistent with the encoding", "statement": "The likelihood of a pair is in (0,1), is above 1/2 exactly when the latent values agree with the stated preference, grows with the latent difference, swapping the two points or flipping the sign gives the complementary probability, and likelihood_all_pairs agrees with the pairwise likelihood.", "quantifier": "all latent vectors, all pairs, all sigma > 0", "why_tests_cant": "Continuum of inputs.", "anchors": ["src/lop/probits/PreferenceProbit.py:likelihood", "src/lop/probits/PreferenceProbit.py:likelihood_all_pairs", "src/lop/probits/PreferenceProbit.py:z_k"]}
{"id": "C40", "title": "Preference gradient and Hessian are the derivatives of the log likelihood", "statement": "derivatives(y,F) returns the gradient of the log likelihood of the pair list and W equal to minus its Hessian, for all pair lists.", "quantifier": "all pair lists (repeats, both signs), all latent vectors with unclipped arguments, all sigma > 0", "why_tests_cant": "Analytic identity over a continuum and lists of any length.", "anchors": ["src/lop/probits/PreferenceProbit.py:derv_log_likelyhood", "src/lop/probits/PreferenceProbit.py:calc_W", "src/lop/probits/PreferenceProbit.py:derivatives"]}
{"id": "C41", "title": "The preference Hessian is positive semidefinite with zero row sums", "statement": "W is symmetric, each row sums to zero, and x^T W x >= 0 for all x, so the Newton system W + K^-1 is positive definite and the log likelihood is concave.", "quantifier": "all pair lists, latent vectors, sigma > 0 and all x", "why_tests_cant": "Universal over all vectors; needs the log-concavity of the normal CDF.", "anchors": ["src/lop/probits/PreferenceProbit.py:calc_W"]}
{"id": "C42", "title": "Derivatives of W used in hyper-parameter search are right", "statement": "calc_W_dHyper and grad_hyper are the sigma-derivatives of W and of the log likelihood, and calc_W_dF is the derivative of W with respect to the latent values.", "quantifier": "all pair lists, latent vectors, sigma", "why_tests_cant": "Analytic identity; shipped tests check shapes only.", "anchors": ["src/lop/probits/PreferenceProbit.py:calc_W_dF", "src/lop/probits/PreferenceProbit.py:calc_W_dHyper", "src/lop/probits/PreferenceProbit.py:grad_hyper"]}
{"id": "C43", "title": "Ordinal likelihoods form a distribution over the labels", "statement": "For every latent value the likelihoods of the n labels are non-negative and sum to 1, and larger latent values shift mass to larger labels, when thresholds come from the scalar form.", "quantifier": "all n >= 2, sigma > 0, thresholds, latent values", "why_tests_cant": "Continuum of inputs and all n.", "anchors": ["src/lop/probits/OrdinalProbit.py:likelihood_each", "src/lop/probits/OrdinalProbit.py:norm_cdf", "src/lop/probits/OrdinalProbit.py:set_b"]}
{"id": "C44", "title": "Ordinal derivatives are derivatives", "statement": "The gradient returned for ordinal labels is the derivative of the log likelihood and W is minus the second derivative.", "quantifier": "all labels, latent values, thresholds", "why_tests_cant": "Analytic identity over a continuum.", "anchors": ["src/lop/probits/OrdinalProbit.py:derivatives"]}
{"id": "C45", "title": "Rating likelihood parameters are a proper Beta distribution with the linked mean", "statement": "The Beta parameters of every latent value are positive, sum to the precision v, and their mean is the clipped normal-CDF link, increasing in the latent value; log_likelihood and derivatives report the same value.", "quantifier": "all latent vectors, v > 0, sigma > 0, all rating lists", "why_tests_cant": "Continuum of inputs.", "anchors": ["src/lop/probits/AbsBoundProbit.py:mean_link", "src/lop/probits/AbsBoundProbit.py:get_alpha_beta", "src/lop/probits/AbsBoundProbit.py:log_likelihood", "src/lop/probits/AbsBoundProbit.py:derivatives"]}
{"id": "C46", "title": "Repeated ratings of one point all count", "statement": "If a point has several ratings, every one of them contributes to the rating log likelihood, its gradient and W.", "quantifier": "all rating lists", "why_tests_cant": "Needs lists with repeated indices.", "anchors": ["src/lop/probits/AbsBoundProbit.py:log_likelihood", "src/lop/probits/AbsBoundProbit.py:derivatives", "src/lop/probits/OrdinalProbit.py:derivatives"]}
{"id": "C47", "title": "Ordinal hyper-parameters survive a round trip", "statement": "Reading the ordinal hyper-parameters and setting them back leaves the label probabilities unchanged.", "quantifier": "all numbers of ordinals and thresholds", "why_tests_cant": "All n and threshold vectors.", "anchors": ["src/lop/probits/OrdinalProbit.py:get_hyper", "src/lop/probits/OrdinalProbit.py:set_hyper", "src/lop/probits/OrdinalProbit.py:set_b"]}
{"id": "C48", "title": "Line searches return the best examined step inside the bounds", "statement": "binary_line_search returns a step strictly inside the search bounds, within width/2^(k+1) of the maximiser for every concave quadratic objective; iterative_line_search returns a grid step whose objective is maximal on the grid, or raises if every grid value is -infinity.", "quantifier": "all objectives, bounds, iteration counts", "why_tests_cant": "Quantifies over functions.", "anchors": ["src/lop/models/PreferenceModel.py:binary_line_search", "src/lop/models/PreferenceModel.py:iterative_line_search"]}
{"id": "C49", "title": "binary_line_search finds the maximiser of concave objectives", "statement": "For every concave objective the returned step is within the final interval width of a maximiser on the search interval.", "quantifier": "all concave objectives", "why_tests_cant": "Quantifies over functions.", "anchors": ["src/lop/models/PreferenceModel.py:binary_line_search"]}
{"id": "C50", "title": "Mode finding always stops", "statement": "find_mode performs at most 101 Newton updates (PreferenceLinear.optimize at most 100) whatever the data and numerical behaviour, and returns the last accepted latent vector.", "quantifier": "all data, all update behaviours including never-converging ones", "why_tests_cant": "Termination over all possible numeric sequences.", "anchors": ["src/lop/models/PreferenceGP.py:find_mode", "src/lop/models/PreferenceLinear.py:optimize"]}
{"id": "C51", "title": "select returns the requested number of distinct new candidates", "statement": "For a learner that picks single points, select(candidates, n) either raises or returns exactly min(n, the learner's maximum) pairwise different indices, all in range, none previously selected; it raises only if fewer than n unselected candidates exist. Each point is chosen by the learner knowing exactly the points selected before.", "quantifier": "all candidate sets, preferred sets, previous selections, n and all greedy criteria", "why_tests_cant": "Quantifies over all learners and inputs.", "anchors": ["src/lop/active_learning/ActiveLearner.py:select", "src/lop/active_learning/ActiveLearner.py:select_greedy_k"]}
{"id": "C52", "title": "Preferred points are exhausted first", "statement": "select never returns a non-preferred candidate while a preferred, not previously selected one is left out, and the preferred ones come first.", "quantifier": "all inputs and greedy criteria", "why_tests_cant": "Quantifies over all learners and inputs.", "anchors": ["src/lop/active_learning/ActiveLearner.py:select"]}
{"id": "C53", "title": "BestLearner and WorstLearner return sorted extreme candidates; UCB maximises its bound", "statement": "With all candidates preferred, BestLearner returns n allowed candidates in non-increasing predicted value such that no left-out allowed candidate is better than any returned one (WorstLearner dually, UCBLearner for mu + alpha*sqrt(var)), for any enumeration order of the index sets.", "quantifier": "all prediction vectors with ties, all n, all set orders", "why_tests_cant": "All sizes and tie patterns.", "anchors": ["src/lop/active_learning/BestLearner.py", "src/lop/active_learning/UCBLearner.py", "src/lop/active_learning/ActiveLearner.py:select"]}
{"id": "C54", "title": "always_select_best puts the best preferred candidate first", "statement": "With always_select_best and no previous selection, the first returned index has maximal predicted value among the preferred candidates and the rest obeys the other selection guarantees.", "quantifier": "all inputs", "why_tests_cant": "All sizes and tie patterns.", "anchors": ["src/lop/active_learning/ActiveLearner.py:select", "src/lop/active_learning/ActiveLearner.py:select_best"]}
{"id": "C55", "title": "return_not_selected succeeds whenever plain selection does", "statement": "With return_not_selected=True the returned selection has the requested length, is duplicate free and disjoint from the not-selected list, and the call succeeds whenever enough candidates exist.", "quantifier": "all inputs and greedy criteria", "why_tests_cant": "Depends on the order in which the learner proposes non-preferred points.", "anchors": ["src/lop/active_learning/ActiveLearner.py:select"]}
{"id": "C56", "title": "Pair-selecting learners obey the requested count and exclusions", "statement": "select with a learner that selects pairs returns exactly the requested number of distinct candidates, none previously selected, preferred ones first.", "quantifier": "all inputs and pair criteria", "why_tests_cant": "Quantifies over all learners and inputs.", "anchors": ["src/lop/active_learning/ActiveLearner.py:select", "src/lop/active_learning/ActiveLearner.py:pick_pair_from_metric", "src/lop/active_learning/BayesInfoGain.py:select_pair"]}
{"id": "C57", "title": "Preferred-set argument is interpreted as documented", "statement": "get_prefered_set_of_pts maps None and 0 to all candidates, a positive count k to the first k, \"pareto\" to the Pareto front, a set/list to itself, rejects everything else, and returns only valid candidate indices.", "quantifier": "all arguments and candidate counts", "why_tests_cant": "All argument kinds and sizes.", "anchors": ["src/lop/active_learning/ActiveLearner.py:get_prefered_set_of_pts"]}
{"id": "C58", "title": "Pair choice from a metric is an optimal pair", "statement": "pick_pair_from_metric returns two different in-range candidates, not both previously selected, whose metric value is the maximum over all such pairs, for every tie-breaking draw and every order argsort may give to ties, provided some candidate was not selected before.", "quantifier": "all finite metric matrices of size >= 2, all previous selections, all draws, all tie orders", "why_tests_cant": "All matrices, ties and draws.", "anchors": ["src/lop/active_learning/ActiveLearner.py:pick_pair_from_metric"]}
{"id": "C59", "title": "Mutual information scores are information gains", "statement": "The score used by MutualInfoLearner is >= 0, at most log2 of the number of alternatives, and 0 when all sampled models agree on the choice probabilities.", "quantifier": "all sample matrices of choice distributions", "why_tests_cant": "Gibbs inequality over a continuum of distributions of any size.", "anchors": ["src/lop/active_learning/MutualInfoLearner.py:calc_info_gain"]}
{"id": "C60", "title": "The default Bayesian information-gain score discriminates between candidates", "statement": "BayesInfoGain.select_greedy with the default method scores candidates by how much they reduce entropy, so some candidate can score above another.", "quantifier": "all probabilities and candidate sets", "why_tests_cant": "That a score is identically zero needs an argument for every input.", "anchors": ["src/lop/active_learning/BayesInfoGain.py:calc_H_B_Q", "src/lop/active_learning/BayesInfoGain.py:select_greedy"]}
{"id": "C61", "title": "Fast and vectorised alignment sums agree", "statement": "The compiled double loop and the vectorised expansion used for small problems give the same expected alignment matrix, so the size threshold never changes a selection.", "quantifier": "all alignment matrices and probability tensors", "why_tests_cant": "All sizes; the switch depends on a size threshold.", "anchors": ["src/lop/active_learning/AcquisitionSelection.py:quick_calculation_sum_align_q", "src/lop/active_learning/AcquisitionSelection.py:select_pair"]}
{"id": "C62", "title": "Mixed query schedules follow their rule over any history", "statement": "After attaching a model, MixedComparisionSetFixed asks for ratings in exactly the first 8 queries and pairs afterwards, and MixedAlternating strictly alternates starting with a pair, whatever the candidates, also after re-attaching a model.", "quantifier": "all call histories", "why_tests_cant": "Counter state machine over unbounded histories.", "anchors": ["src/lop/active_learning/RateChooseLearner.py:MixedComparisionSetFixed", "src/lop/active_learning/RateChooseLearner.py:MixedAlternating"]}
{"id": "C63", "title": "Mixed comparison picks the better scaled query type", "statement": "RateChooseLearner and MixedComparision return the query type with the larger (scaled) score and break only exact ties at random.", "quantifier": "all scores, scalings and tie draws", "why_tests_cant": "Continuum of scores.", "anchors": ["src/lop/active_learning/RateChooseLearner.py:RateChooseLearner.select", "src/lop/active_learning/RateChooseLearner.py:MixedComparision.select"]}
{"id": "C64", "title": "Mixed strategies use valid, monotone rating probabilities", "statement": "For every call number the rating probability of each MixedStrategy variant lies in [0,1] (constant in [0,1], decay rate >= 0), the peak variants are non-increasing from the third call on, and a rating is requested iff the draw is <= the probability.", "quantifier": "all call numbers and parameters", "why_tests_cant": "Infinite sequence of call numbers.", "anchors": ["src/lop/active_learning/MixedStrategy.py:MixedStrategy", "src/lop/active_learning/MixedStrategy.py:MixedStrategyPeak", "src/lop/active_learning/MixedStrategy.py:MixedStrategyPeak2", "src/lop/active_learning/MixedStrategy.py:MixedStrategyPeak3", "src/lop/active_learning/MixedStrategy.py:MixedStrategyRevPeak"]}
{"id": "C65", "title": "The mixed decision mode changes only at evaluation calls", "statement": "In MixedDecision and MixedDecision2 the mode can change only at the 6th, 11th and 16th query after attaching a model (failed calls not counted); after any answered call the mode is one of mixed / rating / pair, an evaluation with positive scores picks pairs (ratings) iff their score is more than twice the other, and from the 17th query on the mode is constant.", "quantifier": "all histories of scores and draws", "why_tests_cant": "State machine over unbounded histories.", "anchors": ["src/lop/active_learning/MixedStrategy.py:MixedDecision.select"]}
{"id": "C66", "title": "AlignmentDecision answers every query", "statement": "AlignmentDecision.select returns a query (and leaves the model as it was) on every call after a model is attached.", "quantifier": "all histories", "why_tests_cant": "History-dependent control flow.", "anchors": ["src/lop/active_learning/MixedTypeDecision.py:AlignmentDecision.select", "src/lop/active_learning/MixedTypeDecision.py:AlignmentDecision.determine_query_type"]}
{"id": "C75", "title": "The equality-checking learner falls back to ratings for look-alike pairs", "statement": "MixedComparisionEqualChecking asks for a rating whenever the two selected points share a coordinate value and the effect size is below the limit; otherwise it returns the query type with the larger score (random only on exact ties); a selection that is not a pair is refused.", "quantifier": "all points, scores, effect sizes, limits and draws", "why_tests_cant": "Continuum of scores and points.", "anchors": ["src/lop/active_learning/RateChooseLearner.py:MixedComparisionEqualChecking.select"]}
{"id": "C67", "title": "GP data store and prior behave as documented", "statement": "After any add/reset history GP holds exactly the points added since the last reset and the observations minus the mean function; predicting without data returns the mean function.", "quantifier": "all histories, mean functions and query sets", "why_tests_cant": "Unbounded histories.", "anchors": ["src/lop/models/GP.py:add", "src/lop/models/GP.py:reset", "src/lop/models/GP.py:predict"]}
{"id": "C68", "title": "GP regression reproduces noise-free data", "statement": "With zero observation noise and an invertible covariance, predicting at the training inputs returns the training observations (mean function added back), and reported variances are never negative.", "quantifier": "all training sets, kernels and observations", "why_tests_cant": "Linear algebra identity for every size.", "anchors": ["src/lop/models/GP.py:predict"]}
{"id": "C69", "title": "Predicting in chunks changes nothing", "statement": "predict_large(X) returns, for every number of query points, the same means as predict(X) in the same order, one per query point.", "quantifier": "all query set sizes, chunk boundaries, kernels", "why_tests_cant": "All lengths modulo the chunk size.", "anchors": ["src/lop/models/PreferenceGP.py:predict_large", "src/lop/models/PreferenceGP.py:predict"]}
{"id": "C70", "title": "Synthetic utility functions respect improvement", "statement": "The linear, weighted max/min, squared and logistic synthetic utilities never decrease when every reward increases (on their documented domains); the linear one is a weighted average.", "quantifier": "all dimensions, weights and reward vectors", "why_tests_cant": "Continuum of inputs, all dimensions.", "anchors": ["src/lop/utilities/FakeFunction.py:FakeLinear", "src/lop/utilities/FakeFunction.py:FakeWeightedMax", "src/lop/utilities/FakeFunction.py:FakeWeightedMin", "src/lop/utilities/FakeFunction.py:FakeSquared", "src/lop/utilities/FakeFunction.py:FakeLogistic"]}
{"id": "C71", "title": "Single-point and batch evaluation of synthetic utilities agree", "statement": "Evaluating a synthetic utility on one reward vector equals the corresponding entry of the batch evaluation.", "quantifier": "all reward vectors", "why_tests_cant": "Continuum of inputs.", "anchors": ["src/lop/utilities/FakeFunction.py:FakeSquaredMinMax", "src/lop/utilities/FakeFunction.py:FakeLinear", "src/lop/utilities/FakeFunction.py:FakeWeightedMax"]}
{"id": "C72", "title": "The perfect user is consistent with its utility and with Pareto dominance", "statement": "PerfectUser.choose returns an option of maximal utility; with a strictly increasing utility the chosen option is Pareto optimal; its ratings are strictly between 0 and 1 and ordered like the utilities.", "quantifier": "all query sets and utilities", "why_tests_cant": "Relates two functions over all inputs.", "anchors": ["src/lop/utilities/synthetic_user.py:PerfectUser", "src/lop/utilities/pareto.py:get_pareto"]}
{"id": "C73", "title": "Rating calibration maps the utility range onto the rating range", "statement": "get_k_b makes the rating of the minimal utility the requested bottom rating and of the maximal utility the requested top rating, and ratings are increasing in utility.", "quantifier": "all utility ranges and rating ranges 0 < bot < top < 1", "why_tests_cant": "Continuum of inputs.", "anchors": ["src/lop/utilities/HumanChoiceUser2.py:get_k_b", "src/lop/utilities/synthetic_user.py:sigmoid"]}
{"id": "C74", "title": "Any call that changes the data makes the next prediction refit", "statement": "After any history of add (accepted or rejected), add_prior, remove_without_reference, optimize and predict calls, predict on a non-empty store either refits or uses a fit of exactly the stored data; in particular it keeps answering after a rejected call.", "quantifier": "all call histories including rejected and failing calls", "why_tests_cant": "Unbounded interleavings of accepted and rejected calls.", "anchors": ["src/lop/models/PreferenceModel.py:add", "src/lop/models/PreferenceModel.py:remove_without_reference", "src/lop/models/PreferenceGP.py:predict", "src/lop/models/PreferenceGP.py:hyperparameter_search"]}
{"id": "C76", "title": "Kernel priors and parameter vectors are consistent", "statement": "For every kernel expression set_param followed by get_param returns the vector, its length is len(kernel), the log prior is minus infinity exactly when a parameter is negative, and grad_param_likli is the gradient of param_likli for parameters above the clipping threshold.", "quantifier": "all kernel expressions of any nesting depth and all parameter vectors", "why_tests_cant": "Structural induction over expressions combined with an analytic identity.", "anchors": ["src/lop/kernels/KernelFunc.py:DualKern", "src/lop/kernels/RBF_kern.py:param_likli", "src/lop/kernels/LinearKern.py:param_likli", "src/lop/kernels/PeriodicKern.py:param_likli", "src/lop/utilities/gamma_dist.py"]}
{"id": "C77", "title": "Gradient of the log prior of all hyper-parameters", "statement": "grad_hyper_liklihood has one entry per entry of get_hyper and is the gradient of hyper_liklihood, for every combination of label types and every kernel.", "quantifier": "all label-type combinations, all kernels, all parameters above the clipping threshold", "why_tests_cant": "An analytic identity over a continuum combined with the bookkeeping of a concatenated vector.", "anchors": ["src/lop/models/PreferenceModel.py:grad_hyper_liklihood", "src/lop/models/PreferenceModel.py:hyper_liklihood", "src/lop/models/PreferenceGP.py:grad_hyper_liklihood", "src/lop/probits/AbsBoundProbit.py:grad_param_likli", "src/lop/probits/OrdinalProbit.py"]}
{"id": "C78", "title": "Hyper-parameter search is bounded and stops on the last four gradients", "statement": "optimize_parameters-style hyper-parameter optimisation performs at most 600 searches whatever the objective does, none when fewer than four points are stored, and declares convergence exactly when the mean of the last four gradients is small; gradients older than four steps have no influence.", "quantifier": "all gradient sequences, all fold splits, all numbers of points", "why_tests_cant": "Quantifies over all numeric behaviours of the gradients.", "anchors": ["src/lop/models/PreferenceGP.py:optimize", "src/lop/models/PreferenceGP.py:hyperparameter_search"]}
{"id": "C79", "title": "Normalised latent values stay in their range", "statement": "With normalize_gp the mode found by PreferenceGP has every value in [0,1] with 0 and 1 attained (normalize_positive), or greatest absolute value exactly 1 (otherwise), and normalisation never changes the order of the points.", "quantifier": "all latent vectors and all Newton updates", "why_tests_cant": "Quantifies over all real vectors.", "anchors": ["src/lop/models/PreferenceGP.py:find_mode"]}
{"id": "C80", "title": "Newton updates move along the descent direction and never lower the objective", "statement": "newton_update returns F - step * descent with a step inside the search bounds of the chosen line search, leaves a stationary point unchanged, works with its default line search and never returns a vector with a lower objective than F when the objective is concave along the line.", "quantifier": "all vectors, directions, objectives and iteration counts", "why_tests_cant": "Quantifies over objectives.", "anchors": ["src/lop/models/PreferenceModel.py:newton_update"]}
{"id": "C81", "title": "Rating gradient and W are the derivatives of the rating log likelihood", "statement": "AbsBoundProbit.derivatives returns the summed log density of the ratings under their Beta distributions, its gradient and minus its Hessian, when every point is rated at most once.", "quantifier": "all rating lists without repeated points, all latent vectors with unclipped mean, all sigma and v > 0, all special functions that are derivatives of each other", "why_tests_cant": "Derivatives at every point cannot be tested; digamma enters through its defining relation only.", "anchors": ["src/lop/probits/AbsBoundProbit.py:derivatives"]}
{"id": "C82", "title": "Rating derivatives used in hyper-parameter search are right", "statement": "grad_hyper returns the sigma- and v-derivatives of the rating log likelihood, calc_W_dHyper those of W, and calc_W_dF is the derivative of W with respect to the latent values, with the sign PreferenceProbit uses.", "quantifier": "all rating lists, latent vectors, sigma, v", "why_tests_cant": "Identities between special functions at all arguments.", "anchors": ["src/lop/probits/AbsBoundProbit.py:grad_hyper", "src/lop/probits/AbsBoundProbit.py:calc_W_dHyper", "src/lop/probits/AbsBoundProbit.py:calc_W_dF"]}
{"id": "C83", "title": "Utilities of sampled queries are utilities of their options", "statement": "Evaluating a synthetic utility on the (queries x options x rewards) array built by learn_beta gives, for every query and option, the utility of that option.", "quantifier": "all query arrays, weights and dimensions", "why_tests_cant": "Quantifies over all arrays; the wrong axis is only visible for particular shapes.", "anchors": ["src/lop/utilities/FakeFunction.py:FakeWeightedMax", "src/lop/utilities/FakeFunction.py:FakeWeightedMin", "src/lop/utilities/synthetic_user.py:learn_beta_pairwise", "src/lop/utilities/synthetic_user.py:learn_sigma"]}
{"id": "C84", "title": "learn_beta of HumanChoiceUser calibrates the rating scale", "statement": "After HumanChoiceUser.learn_beta the noise-free rating of the lowest training utility is bot_range and that of the highest is top_range.", "quantifier": "all reward sets, utilities and rating ranges", "why_tests_cant": "Quantifies over all utilities.", "anchors": ["src/lop/utilities/synthetic_user.py:learn_beta"]}
{"id": "C85", "title": "sample_Qs asks for a feasible number of distinct queries", "statement": "sample_Qs returns distinct queries of the requested size, at least min(30, all) and never more than exist or 60000, so the rejection loop ends for every fair generator.", "quantifier": "all numbers of rewards and query sizes, all fair draw sequences", "why_tests_cant": "Needs the binomial coefficient for all sizes and termination for all fair draws.", "anchors": ["src/lop/utilities/synthetic_user.py:sample_Qs"]}
{"id": "C86", "title": "Tuning succeeds only with a small error", "statement": "learn_beta stores a beta and a sigma whose objective is at most 0.02; if ten tries fail it raises an exception and leaves the user unchanged.", "quantifier": "all sequences of optimiser results", "why_tests_cant": "Quantifies over all optimiser behaviours.", "anchors": ["src/lop/utilities/synthetic_user.py:learn_beta_pairwise", "src/lop/utilities/synthetic_user.py:learn_sigma"]}
{"id": "C87", "title": "Every tuning problem gets its own row", "statement": "HumanChoiceUser2.learn_beta stores the sampled utilities of every problem of every environment in a row of its own and uses no other rows.", "quantifier": "all numbers of environments and problems", "why_tests_cant": "Quantifies over all shapes.", "anchors": ["src/lop/utilities/HumanChoiceUser2.py:learn_beta"]}
{"id": "C88", "title": "Human users choose with Luce probabilities and rate inside (0,1)", "statement": "HumanChoiceUser.choose returns a valid option, option i for a fraction of the uniform draws proportional to exp(beta*k*utility); ratings are strictly between 0 and 1 and, for equal noise, ordered like the utilities.", "quantifier": "all users, queries, uniform and normal draws", "why_tests_cant": "Quantifies over all draws and utilities.", "anchors": ["src/lop/utilities/synthetic_user.py:HumanChoiceUser"]}
{"id": "C89", "title": "The pairwise tuning objective grows with rationality", "statement": "The mean choice probability inside HumanChoiceUser2.obj is between 1/2 and 1 and never decreases when beta increases, so matching a target probability is a one-dimensional root search.", "quantifier": "all utility differences and all beta", "why_tests_cant": "Quantifies over all real vectors.", "anchors": ["src/lop/utilities/HumanChoiceUser2.py:obj"]}
{"id": "C90", "title": "The rating tuning objective falls with noise", "statement": "The mean probability inside HumanChoiceUser2.rate_obj is strictly between 1/2 and 1 and strictly decreases when sigma increases, unless all utilities are tied (nan).", "quantifier": "all utility differences and all sigma > 0", "why_tests_cant": "Quantifies over all real vectors; uses the normal distribution function.", "anchors": ["src/lop/utilities/HumanChoiceUser2.py:rate_obj"]}
{"id": "C91", "title": "The Bayesian pair score is never negative", "statement": "Asking a question cannot be expected to lose information: the scores that BayesInfoGain.select_pair ranks pairs by are >= 0.", "quantifier": "all methods, all beliefs p_B and all answer probabilities", "why_tests_cant": "Information gain is a continuous function of beliefs; a sign error shows only for beliefs that contradict the predicted answers.", "anchors": ["src/lop/active_learning/BayesInfoGain.py:select_pair"]}
{"id": "C92", "title": "The first alternative chosen by MutualInfoLearner depends on the samples", "statement": "MutualInfoLearner.select_greedy with an empty previous selection picks an alternative by its score under the sampled rewards.", "quantifier": "all sample matrices and index lists", "why_tests_cant": "That a score is identically zero for one-element queries needs an argument for every input.", "anchors": ["src/lop/active_learning/MutualInfoLearner.py:select_greedy", "src/lop/active_learning/MutualInfoLearner.py:calc_info_gain"]}
{"id": "C93", "title": "The first pair of BayesInfoGain names two different candidates", "statement": "BayesInfoGain.select_pair of an untrained model returns two different members of the candidate indices.", "quantifier": "all index lists and random draws", "why_tests_cant": "A coincidence of random draws.", "anchors": ["src/lop/active_learning/BayesInfoGain.py:select_pair"]}
{"id": "C94", "title": "The alignment of two samples is symmetric", "statement": "For every alignment function the matrix returned by alignment has one row and one column per sample and is symmetric, so the order of the samples never matters.", "quantifier": "all sample sets, representative queries and alignment functions", "why_tests_cant": "All matrices of rewards.", "anchors": ["src/lop/active_learning/AcquisitionBase.py:alignment"]}
{"id": "C95", "title": "Every sample is aligned best with itself", "statement": "No entry of the alignment matrix exceeds the diagonal entry of its row: a sample agrees with no other sample more than with itself.", "quantifier": "all sample sets whose rewards are not constant", "why_tests_cant": "The log-likelihood alignment breaks it only for samples of different confidence.", "anchors": ["src/lop/active_learning/AcquisitionBase.py:alignment"]}
{"id": "C96", "title": "Alignment values stay in their documented range", "statement": "rho alignment lies in [-sqrt 2, 0], epic alignment in [-1, 0], Spearman alignment in [-1, 1] and log-likelihood alignment is never positive.", "quantifier": "all sample sets", "why_tests_cant": "All real reward vectors.", "anchors": ["src/lop/active_learning/AcquisitionBase.py:alignment"]}
{"id": "C97", "title": "Alignment ignores exactly the intended changes of a reward", "statement": "rho alignment is perfect exactly for rewards that differ by a constant, epic alignment exactly for rewards that differ by a positive affine map (and is worst for reversed rewards), Spearman alignment is unchanged by every increasing transformation; the correlations are the textbook Pearson coefficients.", "quantifier": "all reward vectors and transformations", "why_tests_cant": "Equivalences over all real vectors.", "anchors": ["src/lop/active_learning/AcquisitionBase.py:alignment"]}
{"id": "C98", "title": "A query score is an average of alignments", "statement": "The acquisition score of a query lies between the smallest and the largest alignment, and equals the mean alignment when all samples predict the same answer probabilities.", "quantifier": "all alignment matrices, samples and queries", "why_tests_cant": "All tensors of probabilities.", "anchors": ["src/lop/active_learning/AcquisitionSelection.py:select_pair", "src/lop/active_learning/AcquisitionSelection.py:select_greedy"]}
{"id": "C99", "title": "Pair selection and greedy selection score pairs alike", "statement": "The greedy routine assigns a query of two alternatives the score that the pair routine assigns, and its answer probabilities are those used for representative queries.", "quantifier": "all samples, alignment matrices and pairs", "why_tests_cant": "Two implementations with different tensor layouts.", "anchors": ["src/lop/active_learning/AcquisitionSelection.py:select_pair", "src/lop/active_learning/AcquisitionSelection.py:select_greedy"]}
{"id": "C100", "title": "Asking a question never lowers the expected alignment", "statement": "The expected alignment after hearing the answer to any query is at least the mean alignment before asking, for pairs and for longer greedy queries.", "quantifier": "all sample sets, answer probabilities and queries", "why_tests_cant": "Needs conditional positivity of distance matrices; no finite test shows it.", "anchors": ["src/lop/active_learning/AcquisitionSelection.py:select_pair", "src/lop/active_learning/AcquisitionSelection.py:select_greedy", "src/lop/active_learning/AcquisitionBase.py:alignment"]}
{"id": "C101", "title": "Greedy acquisition returns the best candidate", "statement": "select_greedy returns a candidate with the largest expected alignment for every partial query, including the empty one.", "quantifier": "all candidate sets and partial queries", "why_tests_cant": "The empty partial query takes a separate branch.", "anchors": ["src/lop/active_learning/AcquisitionSelection.py:select_greedy"]}
{"id": "C102", "title": "Representative queries are valid", "statement": "Representative queries are distinct ascending index sets into the returned representative points, of the requested size and number (capped by the number of possible queries); stable queries never mix environments; both methods always return.", "quantifier": "all training sets, candidate sets, files and random draws", "why_tests_cant": "Random draws and all sizes.", "anchors": ["src/lop/active_learning/AcquisitionBase.py:get_representative_Q", "src/lop/utilities/sample_utility.py:sample_unique_sets"]}
{"id": "C103", "title": "Alignment between groups extends alignment", "statement": "alignment_between of a group of samples with itself is the alignment matrix of the group, for every alignment function, and swapping the groups transposes the result.", "quantifier": "all groups of samples", "why_tests_cant": "All shapes; two alignment functions are not implemented.", "anchors": ["src/lop/active_learning/AcquisitionBase.py:alignment_between", "src/lop/active_learning/AcquisitionBase.py:alignment"]}
{"id": "C104", "title": "GP regression computes the textbook posterior, whatever the order of the data", "statement": "For query points distinct from the data (or kernels without noise) GP.predict returns the mean k(x,Y)A^-1 y plus the mean function and the variance k(x,x)-k(x,Y)A^-1 k(Y,x), which are unique; permuting the training points together with their observations and noises changes no prediction.", "quantifier": "all kernels without zeroing, training sets, observations, noises, permutations and query sets", "why_tests_cant": "Linear algebra for every size.", "anchors": ["src/lop/models/GP.py:predict", "src/lop/models/GP.py:add"]}
{"id": "C105", "title": "Data never increases the GP variance", "statement": "For valid kernels the exact posterior variance is never negative (so clipping changes nothing) and never exceeds the prior variance at the same point.", "quantifier": "all valid kernels, training sets, noises and query points", "why_tests_cant": "Positive semidefiniteness for every size and parameter.", "anchors": ["src/lop/models/GP.py:predict"]}
{"id": "C106", "title": "GP prediction fails exactly for singular training covariance", "statement": "With positive observation noise and a valid kernel predict always answers, one value per query; it raises LinAlgError exactly when the training covariance is not positive definite, in particular for duplicate noise-free inputs.", "quantifier": "all kernels without zeroing, training sets, noises and query sets", "why_tests_cant": "Existence of the Cholesky factor for every size.", "anchors": ["src/lop/models/GP.py:predict"]}
{"id": "C107", "title": "A fitted preference GP predicts its fitted values with sane variances", "statement": "Predicting a fitted PreferenceGP at its training inputs returns exactly the fitted values F; elsewhere, when W is positive semidefinite, the variance lies between zero and the prior variance and equals the Laplace formula.", "quantifier": "all kernels without zeroing, fitted states and query sets", "why_tests_cant": "Linear algebra for every size.", "anchors": ["src/lop/models/PreferenceGP.py:predict"]}
{"id": "C108", "title": "Fitting a preference GP uses the value and the derivatives of one objective", "statement": "The objective of find_mode is the log likelihood of all comparisons, ordinal labels and ratings plus the Gaussian log prior, up to a constant; the gradient and the Hessian handed to the Newton update are its first and second derivatives along every direction.", "quantifier": "all label sets with in-range indices, latent vectors without clipping, covariances with a Cholesky factor", "why_tests_cant": "Derivatives are limits; a finite-difference test sees one point of one data set.", "anchors": ["src/lop/models/PreferenceGP.py:find_mode", "src/lop/models/PreferenceGP.py:derivatives", "src/lop/models/PreferenceGP.py:likli_f", "src/lop/models/PreferenceModel.py:log_likelyhood_training"]}
{"id": "C109", "title": "Every update of find_mode improves the fit or has reached a stationary point", "statement": "The Newton update of find_mode moves along a direction in which the log posterior increases, and leaves the latent values unchanged exactly when all directional derivatives vanish.", "quantifier": "all label sets, latent vectors without clipping, covariances and inversion routines that invert invertible matrices", "why_tests_cant": "Positive definiteness of the Hessian for every size and every data set.", "anchors": ["src/lop/models/PreferenceGP.py:find_mode", "src/lop/models/PreferenceModel.py:newton_update"]}
{"id": "C110", "title": "The fitted latent values of comparisons are the unique mode", "statement": "With comparison labels a stationary point of the log posterior is its global maximum, any other vector is worse by at least half its squared prior distance, and there is at most one such point.", "quantifier": "all comparison sets and prior covariances", "why_tests_cant": "A global statement over all vectors.", "anchors": ["src/lop/models/PreferenceGP.py:find_mode", "src/lop/models/PreferenceGP.py:likli_f"]}
{"id": "C111", "title": "The linear model differentiates its likelihood correctly", "statement": "derivatives of the linear model returns the log likelihood of the labels under the weights, its gradient, and minus its Hessian with respect to the weights; loss_func returns the same value; with comparisons W is symmetric and positive semidefinite, and definite when the compared differences span all weights.", "quantifier": "all data sets, weights without clipping", "why_tests_cant": "Derivatives are limits.", "anchors": ["src/lop/models/PreferenceLinear.py:derivatives", "src/lop/models/PreferenceLinear.py:loss_func"]}
{"id": "C112", "title": "Fitting the linear model improves its agreement with the labels", "statement": "Every update of the linear model moves along a direction in which the log likelihood increases, so that fitted weights agree better with the comparisons than the random start.", "quantifier": "all comparison sets and start weights", "why_tests_cant": "The behaviour with few comparisons depends on the singularity of a matrix.", "anchors": ["src/lop/models/PreferenceLinear.py:optimize", "src/lop/models/PreferenceModel.py:newton_update"]}
{"id": "C113", "title": "The linear model has best weights", "statement": "The log likelihood of comparisons has a maximum over the weights; stationary weights are the global maximum and unique when the compared differences span.", "quantifier": "all comparison sets", "why_tests_cant": "A global statement over all weights.", "anchors": ["src/lop/models/PreferenceLinear.py:optimize", "src/lop/models/PreferenceLinear.py:loss_func"]}
{"id": "C114", "title": "Predictions of the linear model respect dominance and agreement", "statement": "An untrained linear model refuses one-dimensional input and otherwise never ranks a dominated point above the dominating one; weights agree with a comparison exactly when the predictions order its two points accordingly.", "quantifier": "all inputs and random non-negative weights", "why_tests_cant": "Random weights.", "anchors": ["src/lop/models/PreferenceLinear.py:predict"]}
{"id": "C115", "title": "The search for the noise follows the true derivative", "statement": "When hyper-parameters are searched, the derivative that hyperparamter_obj_grad reports for the noise of the comparisons is the derivative of hyperparameter_obj with respect to that noise, including the log determinant and the prior.", "quantifier": "for all kernels, training folds, validation points with a positive definite covariance, comparisons whose scaled differences are not clipped, and positive noises", "why_tests_cant": "the derivative passes through a determinant and an inverse of arbitrary size; finite differences at sample points cannot establish it", "anchors": ["src/lop/models/PreferenceGP.py:hyperparameter_obj", "src/lop/models/PreferenceGP.py:hyperparamter_obj_grad", "src/lop/models/PreferenceGP.py:grad_likli_f_hyper", "src/lop/models/PreferenceGP.py:likli_f_hyper"]}
{"id": "C116", "title": "The search for covariance parameters follows the true derivative", "statement": "The derivative that hyperparamter_obj_grad reports for a parameter of the covariance function is the derivative of hyperparameter_obj with respect to that parameter.", "quantifier": "for all kernels, parameters and comparisons", "why_tests_cant": "a wrong derivative still lets the optimiser run and return plausible parameters", "anchors": ["src/lop/models/PreferenceGP.py:grad_likli_f_hyper", "src/lop/models/PreferenceGP.py:hyperparamter_obj_grad"]}
{"id": "C117", "title": "The gradient has one entry per hyper-parameter", "statement": "hyperparamter_obj_grad returns as many derivatives as get_hyper returns parameters, for every kind of label, every kernel and every choice of optimised parameters.", "quantifier": "for all models, labels and kernels", "why_tests_cant": "combinations of label kinds, kernel sums and products and optimisation flags are unbounded", "anchors": ["src/lop/models/PreferenceGP.py:hyperparamter_obj_grad", "src/lop/models/PreferenceGP.py:grad_likli_f_hyper"]}
{"id": "C118", "title": "The search objective is always defined for comparisons", "statement": "For comparisons and a positive definite covariance the objective is the log likelihood minus half of F K^-1 F minus half of the log of a determinant that is at least one, so the logarithm never fails and the determinant term never rewards the model.", "quantifier": "for all sizes, covariances, comparisons that are not below the clip, and values F", "why_tests_cant": "K W is not symmetric and no finite set of matrices shows that the determinant stays above one", "anchors": ["src/lop/models/PreferenceGP.py:likli_f_hyper"]}
{"id": "C119", "title": "Sampled chances of being the best are the shares of samples won", "statement": "For a linear model p_B_pref_linear returns non-negative numbers with sum one; the chance of a candidate is the share of sampled weights under which it is the first of the best candidates. A candidate worse than another one under every sampled weight has chance zero, also when it is dominated and the weights are non-negative; one that always wins has chance one.", "quantifier": "for all candidates, dimensions and numbers of sampled weights", "why_tests_cant": "the samples are random; a test sees one draw", "anchors": ["src/lop/active_learning/ActiveLearner.py:p_B_pref_linear"]}
{"id": "C120", "title": "The information gain learner works with every preference model", "statement": "get_p_B_probit returns chances of being the best and answer probabilities for preference GPs and for linear preference models.", "quantifier": "for all models, candidates and predictions", "why_tests_cant": "the tests of the learner use one kind of model", "anchors": ["src/lop/active_learning/BayesInfoGain.py:get_p_B_probit"]}
{"id": "C121", "title": "calc_cdf is a normal distribution function under every method", "statement": "The method independent is the product of the normal chances of the single variables, the method switch is exact for two variables and works for uncorrelated ones, the result lies between zero and one and falls when a mean rises.", "quantifier": "for all means, covariances and methods", "why_tests_cant": "unit variances and correlated variables hide both errors", "anchors": ["src/lop/utilities/probability_utility.py:calc_cdf"]}
{"id": "C122", "title": "Chances of being the best come from the covariance of the differences", "statement": "p_B_pref_gp uses the exact means and covariance of the differences to the candidate, a covariance matrix again, and returns chances with sum one; with two candidates the chance is the normal chance of a positive difference and the candidate with the higher mean has the higher chance.", "quantifier": "for all numbers of candidates, means and covariances", "why_tests_cant": "positive semidefiniteness for all covariances cannot be sampled", "anchors": ["src/lop/active_learning/ActiveLearner.py:p_B_pref_gp"]}
{"id": "C123", "title": "Generalised variance rewards candidates that add information", "statement": "GV_UCB never takes the root of a negative determinant, the bonus is the root of the determinant, a new candidate multiplies the determinant by its conditional variance given the selected ones, repeated candidates get no bonus, the choice has the highest score, and for the first choice the bonus is the standard deviation as in UCB.", "quantifier": "for all covariances, selections and candidates", "why_tests_cant": "determinants of arbitrary size", "anchors": ["src/lop/active_learning/GV_UCBLearner.py:select_greedy"]}
{"id": "C124", "title": "UCB and GV_UCB use the spread of sampled rewards of linear models", "statement": "For a linear model UCB returns an allowed candidate with the highest mean plus alpha standard deviations of the sampled rewards; the sampled covariance used by GV_UCB is symmetric and positive semidefinite.", "quantifier": "for all samples, candidates, alpha and index sets", "why_tests_cant": "the samples are random", "anchors": ["src/lop/active_learning/UCBLearner.py:select_greedy", "src/lop/active_learning/GV_UCBLearner.py:select_greedy"]}
{"id": "C125", "title": "Sampled rewards of candidates and representative points belong together", "statement": "get_samples_from_model returns for every sample the rewards of candidates and of representative points under the same weights or the same joint draw, in order and with the right sizes; stored samples are returned unchanged or restricted to the given columns, and belong to the candidates passed.", "quantifier": "for all models, points, samples and indices", "why_tests_cant": "random draws; a mix-up of rows keeps all shapes", "anchors": ["src/lop/active_learning/AcquisitionBase.py:get_samples_from_model", "src/lop/active_learning/AcquisitionBase.py:set_samples"]}
{"id": "C126", "title": "FakeIntegrate is the integral of its function", "statement": "FakeIntegrate tabulates the integral of the given function over a grid, for every dimension, and calc returns it; FakeStaticSin grows with its argument and FakeSinExp decays at least exponentially.", "quantifier": "for all functions, grid points and arguments", "why_tests_cant": "no test evaluates these functions", "anchors": ["src/lop/utilities/FakeFunction.py:FakeIntegrate", "src/lop/utilities/FakeFunction.py:FakeStaticSin", "src/lop/utilities/FakeFunction.py:FakeSinExp"]}
{"id": "C127", "title": "The latent values searched for by find_mode exist and are unique", "statement": "The log posterior of comparisons, ordinal labels and ratings has a maximum. With comparisons and ordinal labels it has only one, every other vector is lower by at least half its squared distance in the inverse covariance, and every value is bounded by the prior variance times the log likelihood at zero. With comparisons, a vector that is not clipped is left unchanged by an update of find_mode exactly if it is that maximum, and with fewer comparisons than 1800 noise variances per variance of a difference there is exactly one such vector.", "quantifier": "for all labels, covariances and noise levels", "why_tests_cant": "existence and uniqueness over a continuum of vectors", "anchors": ["src/lop/models/PreferenceGP.py:find_mode", "src/lop/models/PreferenceGP.py:derivatives", "src/lop/models/PreferenceGP.py:likli_f"]}
{"id": "C128", "title": "Fitted values answer the comparisons", "statement": "At the mode the values are the prior covariances with the differences, weighted by positive pulls of the comparisons. Comparisons without a contradiction are not all violated, comparisons that support each other under the prior are all respected, repeated copies of one comparison are respected, and comparisons that cancel out leave all values at zero. The log likelihood is at least that of zero values, by the prior cost of the values.", "quantifier": "for all comparisons, covariances and noise levels", "why_tests_cant": "tests fit a few fixed data sets", "anchors": ["src/lop/models/PreferenceGP.py:find_mode", "src/lop/probits/PreferenceProbit.py:derivatives"]}
{"id": "C129", "title": "One more label never lowers its own fit", "statement": "When a comparison is added the difference it speaks about moves in its direction, strictly for two different points. When an ordinal label is added its probability does not fall; the highest label does not lower the value and the lowest does not raise it. When a rating is added its density does not fall.", "quantifier": "for all labels, covariances and noise levels", "why_tests_cant": "a comparison of two optimisation problems for arbitrary data", "anchors": ["src/lop/models/PreferenceGP.py:find_mode", "src/lop/probits/PreferenceProbit.py:log_likelihood", "src/lop/probits/OrdinalProbit.py:log_likelihood", "src/lop/probits/AbsBoundProbit.py:log_likelihood"]}
{"id": "C130", "title": "Fitted values respect the symmetries of comparisons", "statement": "Contrary answers negate the mode; exchanging the two points together with the sign, or reordering the comparisons, does not change it; scaling the noise by c and the covariance by the square of c scales it by c.", "quantifier": "for all comparisons, covariances, noise levels and scales", "why_tests_cant": "relations between different fits", "anchors": ["src/lop/models/PreferenceGP.py:find_mode", "src/lop/probits/PreferenceProbit.py:derivatives"]}
{"id": "C131", "title": "Comparisons without a contradiction are all respected by the fitted values", "statement": "If some assignment of values agrees with all comparisons then the mode agrees with all of them.", "quantifier": "for all comparisons without a contradiction", "why_tests_cant": "fails only for data sets larger than those in tests", "anchors": ["src/lop/models/PreferenceGP.py:find_mode"]}
{"id": "C132", "title": "Predictions at the mode follow the comparisons", "statement": "With the mode stored, the predicted mean of a point is the sum over the comparisons of a positive pull times the signed difference of its covariances with the two compared points; after copies of one comparison a point is predicted positive exactly if it is closer in covariance to the preferred point.", "quantifier": "for all kernels, training points, comparisons and query points", "why_tests_cant": "an identity for arbitrary data", "anchors": ["src/lop/models/PreferenceGP.py:predict", "src/lop/models/PreferenceGP.py:find_mode"]}
{"id": "C133", "title": "find_mode stops close to the mode", "statement": "With comparisons and without normalisation, if find_mode stops before its loop limit, then every latent value it returns is within a fixed multiple of the tolerance delta_f of the unique mode; the multiple depends only on the prior covariance, the noise and the comparisons. In the norm of the prior the distance after an update is at most 1 + 32/3 (1 + load) times the length of the update.", "quantifier": "for all comparisons, covariances, starting values, tolerances and loop limits", "why_tests_cant": "the true mode is not known to a test, and the bound holds for every path of the search", "anchors": ["src/lop/models/PreferenceGP.py:find_mode"]}
{"id": "C134", "title": "The likelihood of a rating is a Beta density around the link", "statement": "For every latent value, exp of the log likelihood of a rating, as a function of the rating, integrates to one over (0,1); its mean is mean_link of the value and its variance is m(1-m)/(v+1). The special functions used are the true ones: log gamma is the only convex function with value 0 at 1 and lg(x+1) = lg x + ln x, and digamma, trigamma and tetragamma are its derivatives.", "quantifier": "for all positive v, all eps below one half and all latent values", "why_tests_cant": "integrals over all ratings of a density which may be unbounded at the edges; tests sample", "anchors": ["src/lop/probits/AbsBoundProbit.py:log_likelihood", "src/lop/probits/AbsBoundProbit.py:get_alpha_beta", "src/lop/probits/AbsBoundProbit.py:mean_link"]}
{"id": "C135", "title": "cdf is the distribution function of ratings and better points get better ratings", "statement": "AbsBoundProbit.cdf is 0 below 0, 1 above 1, increases strictly between, has no jumps at the edges and has the likelihood as derivative. A larger latent value makes a rating of at most y less likely, strictly so while the link is not clipped.", "quantifier": "for all positive v and sigma, all eps below one half, all latent values and ratings", "why_tests_cant": "stochastic dominance is a statement over all ratings and pairs of values", "anchors": ["src/lop/probits/AbsBoundProbit.py:cdf"]}
{"id": "C136", "title": "pdf_gamma is the gamma density with mean k theta", "statement": "pdf_gamma, the prior of the hyper-parameters of kernels and probits, integrates to one over the positive numbers, has mean k theta as documented and variance k theta^2, and for k above one a single peak at (k-1) theta.", "quantifier": "for all positive k and theta", "why_tests_cant": "integrals over all positive values; tests compare a few values", "anchors": ["src/lop/utilities/gamma_dist.py:pdf_gamma"]}
{"id": "C137", "title": "Rating acquisition returns the candidate with the largest expected alignment", "statement": "AbsAcquisition.select_greedy returns one of the candidates; before training a random one, afterwards the one whose expected alignment after hearing a rating is largest, up to the error of the integration and the part of the integral outside of the limits 0.0001 and 0.9999, which is at most the largest alignment times the chance of such a rating. An empty candidate list raises ValueError. The expected alignment always exists.", "quantifier": "for all samples, alignments, candidates, numbers of samples and latent values", "why_tests_cant": "the score is an integral over all ratings of a ratio of sums over samples; tests see single picks", "anchors": ["src/lop/active_learning/AbsAcquisition.py:select_greedy", "src/lop/active_learning/AbsAcquisition.py:pq_integrand"]}
{"id": "C138", "title": "Asking for a rating never lowers the expected alignment", "statement": "Averaged over the rating the user may give, the alignment of the samples after the answer is at least the alignment before. The gain is an explicit integral, zero when all samples agree about the candidate.", "quantifier": "for all alignment kinds, samples, candidates and latent values", "why_tests_cant": "an expectation over a continuum of answers and all sample sets", "anchors": ["src/lop/active_learning/AbsAcquisition.py:pq_integrand", "src/lop/active_learning/AbsAcquisition.py:fast_sum_Q"]}
{"id": "C139", "title": "Rating scores stay between the smallest and the largest alignment", "statement": "The value select_greedy reports for a candidate is an average of alignments, so it lies between the smallest and the largest entry of the alignment matrix.", "quantifier": "for all samples, alignments and candidates", "why_tests_cant": "the loss of the cut edges is small in typical tests and depends on the latent values", "anchors": ["src/lop/active_learning/AbsAcquisition.py:select_greedy", "src/lop/active_learning/AbsAcquisition.py:pq_integrand"]}
{"id": "C140", "title": "AbsBayesInfo scores candidates by the surprise of their ratings", "statement": "Once the debugger is left, the information gain select_greedy of AbsBayesInfo computes for a candidate equals the surprise, minus the logarithm of the chance, of the candidate being rated above the mean rating of the best candidate, averaged over the samples and over which candidate is the best. It is positive, and the first candidate with the largest value is returned; an untrained learner returns a random candidate.", "quantifier": "for all samples, positive chances of being the best, and candidates", "why_tests_cant": "two nested integrals of truncated densities over all ratings; the repository skips its test", "anchors": ["src/lop/active_learning/AbsBayesInfo.py:select_greedy", "src/lop/active_learning/AbsBayesInfo.py:integrand", "src/lop/active_learning/AbsBayesInfo.py:p_q_f_B_unorm"]}
{"id": "C141", "title": "AbsBayesInfo does not prefer candidates known to be worse", "statement": "A candidate which every sample values less than another one never gets the higher score, so a candidate which is the worst under every sample is not asked about.", "quantifier": "for all samples and candidates", "why_tests_cant": "an ordering over all sample sets; the scores themselves look plausible", "anchors": ["src/lop/active_learning/AbsBayesInfo.py:select_greedy", "src/lop/active_learning/AbsBayesInfo.py:integrand"]}
{"id": "C142", "title": "AbsBayesInfo returns one of the given candidates for every model", "statement": "A trained AbsBayesInfo returns the best scored candidate among the given indices, whichever of the candidates are given and for Gaussian processes and linear models alike.", "quantifier": "for all models, candidates and indices", "why_tests_cant": "needs the shapes of the broadcast arrays and the chances that are exactly zero", "anchors": ["src/lop/active_learning/AbsBayesInfo.py:select_greedy", "src/lop/active_learning/AbsBayesInfo.py:calc_one_time", "src/lop/active_learning/AbsBayesInfo.py:p_q_f_B_unorm"]}
{"id": "C143", "title": "metropolis_hastings samples the distribution proportional to the likelihood", "statement": "The chance of accepting a proposal balances every pair of states under normal proposals, and only differences of the log likelihood matter. For every continuous log likelihood over real vectors whose exponential has a finite integral, a chain with normal proposals started from the density proportional to the likelihood keeps it for every returned sample, and no other density with a bounded ratio to the likelihood is kept. For finitely many states that are all proposed from each other with at least a fixed chance, the error of every sample falls geometrically with the length of the burn-in, from any start.", "quantifier": "for all dimensions, deviations, log likelihoods, states, numbers of samples and lengths of the burn-in", "why_tests_cant": "a statement about the distribution of all random draws; tests look at averages of one run", "anchors": ["src/lop/utilities/mcmc_sampling.py:metropolis_hastings", "src/lop/utilities/mcmc_sampling.py:normal_prop_dist"]}
{"id": "C144", "title": "Predictions after find_mode are close to the predictions at the mode", "statement": "When find_mode stops before its limit of loops, the mean predicted for any new point differs from the mean a model storing the exact mode would predict by at most a factor, depending on the data and the tolerance only, times the prior standard deviation of that point; points whose predictions at the mode differ by more are ranked the same.", "quantifier": "for all valid kernels, training points, sets of comparisons, new points, starts, tolerances and limits of loops", "why_tests_cant": "the exact mode is not computed anywhere, so tests have nothing to compare the predictions with", "anchors": ["src/lop/models/PreferenceGP.py:PreferenceGP.find_mode", "src/lop/models/PreferenceGP.py:PreferenceGP.predict"]}
{"id": "C145", "title": "What a preference GP predicts depends only on the data it was given", "statement": "Whatever sequence of additions of comparisons, predictions and resets was made before, the next prediction of a preference GP succeeds and is within a known bound of the prediction from the mode of all comparisons given since the last reset. Hence two objects given the same points and comparisons in another order or in other batches, with other predictions in between and other random starts, predict nearly the same. After a reset an object predicts like a new one.", "quantifier": "for all histories of calls, configurations, points to predict and random starts, where the last fit ended before its limit of loops", "why_tests_cant": "the histories and random starts are unbounded in number, and a stale fit shows only after particular interleavings of calls", "anchors": ["src/lop/models/PreferenceGP.py:PreferenceGP.predict", "src/lop/models/PreferenceGP.py:PreferenceGP.find_mode", "src/lop/models/PreferenceModel.py:PreferenceModel.add", "src/lop/models/PreferenceModel.py:PreferenceModel.reset"]}
{"id": "C146", "title": "ProbabilityLearner selects a candidate by its chance of being the best", "statement": "Asked for a point, ProbabilityLearner returns one of the candidates, so that select returns the requested number of alternatives. The values it computes for two candidates are the chances that each is the better one.", "quantifier": "for all models, candidates, predictions, covariances and selections", "why_tests_cant": "the function opens a plot and the debugger, so no automatic test runs it", "anchors": ["src/lop/active_learning/ProbabilityLearner.py:ProbabilityLearner.select_greedy", "src/lop/active_learning/ActiveLearner.py:ActiveLearner.select"]}
{"id": "C147", "title": "The weights sampled for a linear model come from the posterior over weights", "statement": "The acquisition functions sample weights of a PreferenceLinear model with metropolis_hastings and its loss_func. The likelihood given there is a density over weights (up to a factor), so there is a distribution of weights that the sampler keeps.", "quantifier": "for all training points, comparisons, noise parameters and numbers of features", "why_tests_cant": "the samples of one run look plausible; the missing prior shows only in the integral over all weights", "anchors": ["src/lop/models/PreferenceLinear.py:PreferenceLinear.loss_func", "src/lop/utilities/mcmc_sampling.py:metropolis_hastings", "src/lop/active_learning/AcquisitionBase.py:AcquisitionBase.get_samples_from_model"]}
{"id": "C148", "title": "learn_beta stores a beta that makes the user pick the best option with the wanted probability", "statement": "The objective that learn_beta minimises measures the squared difference between the wanted probability and the chance that a user of rationality beta picks the best option, averaged over the queries; the error of the sampling vanishes with the number of queries, so that a beta far off is rarely accepted. More rational users are more accurate. The beta that is stored has an accuracy within the threshold.", "quantifier": "for all query matrices, utilities, rationalities, wanted probabilities and random draws", "why_tests_cant": "the objective is random; a test sees single draws, not their distribution, and rarely a set of two alternatives", "anchors": ["src/lop/utilities/synthetic_user.py:HumanChoiceUser.sampled_objective", "src/lop/utilities/synthetic_user.py:HumanChoiceUser.learn_beta_pairwise"]}
{"id": "C149", "title": "The objective of learn_sigma measures how often noisy ratings rank the best option first", "statement": "For queries of two options the objective has, averaged over the normal noise, the value (A(sigma) - p)^2 plus a spread of at most 1/(4N), where A(sigma) is the average of ndtr(|difference|/(sigma sqrt 2)); A falls with sigma and lies between 1/2 and 1. For queries of q options the same holds where A is the average chance that the noisy maximum is the true one, an integral over the noise of the best option; A lies between 1/q and 1, falls with sigma, and is near 1 when the best options lead by many sigma.", "quantifier": "for all query matrices, utilities, noise levels and wanted probabilities", "why_tests_cant": "the objective is random, so that a test cannot separate a biased estimate from noise", "anchors": ["src/lop/utilities/synthetic_user.py:HumanChoiceUser.rate_sampled_objective"]}
{"id": "C150", "title": "The preference probit is the chance of an order under independent normal noise", "statement": "The likelihood that PreferenceProbit gives to a comparison is the probability that the two latent values, each with its own normal noise of standard deviation sigma, are in the order of the label; clipping changes it by less than exp(-450).", "quantifier": "for all latent values, pairs and noise levels", "why_tests_cant": "the formula has to be compared with an integral over the noise; a missing factor sqrt 2 gives plausible values", "anchors": ["src/lop/probits/PreferenceProbit.py:PreferenceProbit.likelihood"]}
{"id": "C151", "title": "kl_objective is zero exactly at the wanted probability", "statement": "kl_objective is the symmetric divergence between the chance of the best option and the wanted probability, averaged over the queries. It is never negative, and zero only if every clipped chance is the wanted one.", "quantifier": "for all query matrices, rationalities and wanted probabilities between 0 and 1", "why_tests_cant": "an exchanged argument or sign gives a value that is still small near the aim", "anchors": ["src/lop/utilities/synthetic_user.py:HumanChoiceUser.kl_objective"]}
{"id": "C152", "title": "p_human_choice in double precision", "statement": "In double precision p_human_choice of one reward vector returns numbers between 0 and 1 in the order of the rewards, never NaN. For a matrix the claim fails: the maximum of the whole matrix is subtracted, so a row far below it loses all its weights to underflow and becomes NaN. The tuning of synthetic users then counts a nearly perfect user as wrong.", "quantifier": "for all reward vectors and matrices, peakiness values and orders of summation in binary64", "why_tests_cant": "the failing rows need rewards that are far apart and a large peakiness; every small test matrix passes", "anchors": ["src/lop/utilities/human_choice_model.py:p_human_choice", "src/lop/utilities/synthetic_user.py:HumanChoiceUser.sampled_objective"]}
{"id": "C153", "title": "MutualInfoLearner selects the most informative candidate in double precision", "statement": "In exact arithmetic select_greedy takes the candidate of the largest information gain. In double precision a probability that underflows gives 0 * log2(0), so the gain is NaN, and argmax takes the first NaN: a candidate whose answer is already known is preferred to an informative one.", "quantifier": "for all reward samples, queries, peakiness values and orders of summation in binary64", "why_tests_cant": "the wrong choice happens without an exception and only for rewards that are far apart", "anchors": ["src/lop/active_learning/MutualInfoLearner.py:MutualInfoLearner.calc_info_gain", "src/lop/active_learning/MutualInfoLearner.py:MutualInfoLearner.select_greedy"]}
{"id": "C154", "title": "Training data are what was passed to add", "statement": "The points and labels of a preference model are what the arrays contained when add was called, provided the caller does not write to an array after passing it. Without that proviso the claim fails: the first array of points, two-column ordinal labels and the index array of ratings are kept by reference until the next call copies them. Writes then change the training data without a new fit and bypass the check of the ordinal labels.", "quantifier": "for all histories of calls of add, add_prior, remove_without_reference and reset, mixed with assignments of the caller", "why_tests_cant": "tests pass fresh arrays; the effect needs an array that is reused after the call", "anchors": ["src/lop/models/PreferenceModel.py:PreferenceModel.add", "src/lop/models/PreferenceModel.py:PreferenceModel.add_prior"]}
{"id": "C155", "title": "Random prior points fill the given box and are all kept", "statement": "add_prior with method random makes points inside the bounds, and with more than two points the upper corner is above all others, so that none is removed and get_prior_pts returns them all. With one point, or with two points of which none is above the other, a new model raises a TypeError after the points were stored.", "quantifier": "for all boxes, numbers of points, random draws and stored data whose points are all compared", "why_tests_cant": "the failure depends on the random draws and on a small number of points; the default of 100 points works", "anchors": ["src/lop/models/PreferenceModel.py:PreferenceModel.add_prior"]}
{"id": "C156", "title": "The accuracy of an experiment is the share of problems whose best path was chosen", "statement": "evaluation lets the model choose the Pareto path of the highest score. The regret is the highest utility minus the utility of that path, the rank is the number of better paths, and accuracy 1 means that no regret is left. This holds when the Pareto paths of a problem are listed first and no two paths have the same utility. Otherwise it fails: other index lists raise IndexError, and with equal utilities a best path can count as wrong.", "quantifier": "for all models, utilities, sorting routines and lists of problems", "why_tests_cant": "the rank is computed with two nested argsorts and the failure needs an index order that the stored problems do not have", "anchors": ["experiments/experiment_helper.py:evaluation", "src/lop/active_learning/ActiveLearner.py:ActiveLearner.select_best"]}
{"id": "C157", "title": "The reported correlations compare scores and utility", "statement": "The pearson value of evaluation is the correlation of scores and utilities, and the value rho is zero exactly if the scores are the utilities up to a shift. The spearman value is 1 for scores in the order of the utilities and is the rank correlation if the paths are listed from best to worst. In another order it is not: scores in exactly the opposite order can be reported with a positive value.", "quantifier": "for all models, utilities, sorting routines and problems", "why_tests_cant": "the wrong value is a plausible number between -1 and 1", "anchors": ["experiments/experiment_helper.py:evaluation"]}
{"id": "C158", "title": "Training records exactly what the user was asked and answered", "statement": "A run of train_and_eval stores exactly the paths that were shown, those added without being shown, and the answers. With a user who never errs every stored pair agrees with the utility and every answer of a switch run is marked correct. Three configurations fail: the perfect user has no learn_beta, rankings return no pairs, and a problem with one path raises IndexError. A user who takes another path of the same utility is marked wrong.", "quantifier": "for all kinds of queries, users, selections, utilities and lists of problems", "why_tests_cant": "runs are random and long, and only the combinations of the shell scripts are ever run", "anchors": ["experiments/experiment_helper.py:train_and_eval"]}
{"id": "C159", "title": "Down-selection gives the configured number of paths", "statement": "A problem with more paths than downselect_num is reduced to exactly that number of its paths, each taken once, by the modes uni, downhull and medrand; smaller problems are left alone. The mode true always gives 60 paths or fails, and the default argument reduces nothing. The number of Pareto paths prefers exactly these paths as long as they are listed first, which fails after down-selection.", "quantifier": "for all problems, numbers of at least two, hulls, medoids and random draws", "why_tests_cant": "the scripts of the experiments only use medrand, and a wrongly preferred path is silent", "anchors": ["experiments/experiment_helper.py:downsample_hull", "experiments/experiment_helper.py:downsample_kmed_rand", "experiments/experiment_helper.py:train_and_eval", "src/lop/active_learning/ActiveLearner.py:ActiveLearner.get_prefered_set_of_pts"]}
{"id": "C160", "title": "Normalisation changes only the scale of a fit", "statement": "With normalize_gp the fitted values lie exactly in the range that normalize_positive selects. Normalisation to absolute values up to 1 keeps the order of all predictions. The rest fails: normalisation between 0 and 1 can turn round the order of two predictions, a normalised fit is not the mode of the posterior, and contradictory answers give values from 0 to 1 instead of equal values.", "quantifier": "for all stored answers, kernels, probits, inverse routines, loop limits and starting values", "why_tests_cant": "the normalised values look plausible and only training points are usually inspected", "anchors": ["src/lop/models/PreferenceGP.py:PreferenceGP.find_mode", "src/lop/models/PreferenceGP.py:PreferenceGP.predict"]}
{"id": "C161", "title": "Updates of the hyper-parameters keep them in their domain", "statement": "After any number of updates of the hyper-parameters no searched parameter is outside its closed domain, and an update is either the gradient step or a new draw from the priors. The rest fails: a length scale of exactly zero is kept, an update that makes the likelihood terrible is not undone but replaced by new draws, and the search fails for every sum or product of kernels.", "quantifier": "for all gradients, numbers of updates and positive draws", "why_tests_cant": "only long searches reach the boundary of the domain", "anchors": ["src/lop/models/PreferenceGP.py:PreferenceGP.hyperparameter_search", "src/lop/models/PreferenceGP.py:PreferenceGP.randomize_hyper", "src/lop/models/PreferenceGP.py:PreferenceGP.optimize"]}
{"id": "C162", "title": "A failed optimisation of hyper-parameters is repeated, never half used", "statement": "If optimize returns, the fitted values come from the mode search on all stored points with the final hyper-parameters, which are in their domain. If no search was made, a failure leaves the model to be fitted again. Otherwise this fails: when a search raises, which it does for a stored point that is repeated and a kernel without noise, or for any ordinal label, the model counts as optimised with the values of one part of the data, and every later prediction raises ValueError.", "quantifier": "for all data, parts of the data, draws, settings of the search and queries", "why_tests_cant": "needs an exception inside the search and a second call of predict", "anchors": ["src/lop/models/PreferenceGP.py:PreferenceGP.optimize", "src/lop/models/PreferenceGP.py:PreferenceGP.hyperparameter_search", "src/lop/models/PreferenceGP.py:PreferenceGP.predict"]}
{"id": "C163", "title": "The derivatives of comparisons are numbers in double precision", "statement": "In double precision the ratio of density and distribution function, the gradient, W and the log likelihood of comparisons are finite, so the guards for infinite ratios are never used. Two things fail: if every comparison is violated by 1000 standard deviations, gradient and W are exactly zero, so nothing pulls the latent values back; and for the smallest noise the gradient is NaN.", "quantifier": "for all arguments of the ratio, all lists of up to 2^40 comparisons, latent values up to 2^500 and noise between 2^-400 and 2^400, and all orders of summation", "why_tests_cant": "rounding, underflow and overflow over the whole range of doubles", "anchors": ["src/lop/probits/ProbitBase.py:calc_pdf_cdf_ratio", "src/lop/probits/PreferenceProbit.py:PreferenceProbit.derivatives", "src/lop/probits/PreferenceProbit.py:PreferenceProbit.calc_W"]}
{"id": "C164", "title": "normalize_0_1 keeps rewards inside (0,1), distinct and in order in double precision", "statement": "Computed in double precision, normalize_0_1 gives numbers strictly between 0 and 1, different ones for different rewards, in the same order.", "quantifier": "every non-empty vector of doubles up to 2^900 and every margin eps from 2^-100 to 2^900; witnesses for the refuted parts for every eps in (0,1]", "why_tests_cant": "tests look at a few vectors of moderate size; rounding to exactly 1, merging of close rewards and overflow need the analysis of every rounding step", "anchors": ["src/lop/utilities/training_utility.py:normalize_0_1"]}
{"id": "C165", "title": "The selector an experiment names is the learner that asks the questions", "statement": "Every selector that the command line accepts starts a learner of the announced kind, with the alignment function in its name and with the flags, scalar, alpha and representative questions of the settings.", "quantifier": "every string as selector and all settings; every type of representative questions", "why_tests_cant": "the table of sixty names has no tests; a wrong branch still runs and gives plausible numbers", "anchors": ["experiments/experiment_helper.py:get_active_learner", "experiments/single_experiment.py:main"]}
{"id": "C166", "title": "The results file holds the finished runs, inside the folder of the experiment", "statement": "The results file holds one row per finished run, in order, in every array, and all output lies inside the folder made for the experiment; a flag given as False is off.", "quantifier": "any number of runs and any way in which they end, with any results; every folder name", "why_tests_cant": "interrupts and failures at every point of a run are not exercised by tests", "anchors": ["experiments/single_experiment.py:main"]}
{"id": "C167", "title": "A Gaussian process holds the data it was given", "statement": "A Gaussian process predicts from the points, outputs and uncertainties that were passed to add, as they were when add was called; what the caller does with the arrays afterwards changes nothing.", "quantifier": "every sequence of calls of add and reset and of assignments of the caller to arrays it has passed; every mean function", "why_tests_cant": "the effect depends on which call of the history an array was passed in and on when it is written to", "anchors": ["src/lop/models/GP.py:44-56", "src/lop/models/GP.py:65-85", "src/lop/models/GP.py:92-125"]}
{"id": "C168", "title": "An experiment is set up as its options say", "statement": "An experiment that starts has the model, the parameters of kernel and probits, the utility function and the user that its options name; a value that is not documented for an option is refused with an error before anything is written, and every documented value works.", "quantifier": "all values of all options, every configuration file", "why_tests_cant": "the product of all options and configurations, including misspelt values", "anchors": ["experiments/experiment_helper.py:365-423", "experiments/experiment_helper.py:518-656", "experiments/single_experiment.py:113-199", "experiments/config.yaml:1-60"]}
{"id": "C169", "title": "Ordinal likelihoods and derivatives are numbers in double precision", "statement": "In double precision, the likelihood, the log likelihood and the first and second derivative of any number of ordinal labels are numbers, neither infinite nor NaN, when the probit parameters and the values are of ordinary size.", "quantifier": "all probits, labels, values and orders of multiplication", "why_tests_cant": "values far from the breakpoints and long lists of labels are outside what tests try", "anchors": ["src/lop/probits/OrdinalProbit.py:160-230", "src/lop/probits/ProbitBase.py:171-172"]}
{"id": "C170", "title": "Missing (NaN) and infinite values do not disturb the Pareto front or the best candidate", "statement": "The Pareto front of rows that contain infinite or missing values holds the rows without missing values that no other row dominates, and the learners for the best and the worst candidate return candidates whose values are numbers when there are any.", "quantifier": "all lists of rows, all candidate values", "why_tests_cant": "tests use finite numbers", "anchors": ["src/lop/utilities/pareto.py:36-51", "src/lop/active_learning/BestLearner.py:43-70"]}
{"id": "C171", "title": "Covariances of the RBF kernel in double precision are usable", "statement": "In double precision the covariance matrix of the RBF kernel is symmetric, its entries are numbers between 0 and sigma squared that are close to the exact ones, it tells different points apart, and with positive noise the Gaussian process can factor it.", "quantifier": "all points, parameters and orders of summation in binary64", "why_tests_cant": "tests use a few well separated points and parameters near 1", "anchors": ["src/lop/kernels/RBF_kern.py:103-121", "src/lop/models/GP.py:92-118"]}
{"id": "C172", "title": "Plain numbers serve as points with one coordinate", "statement": "Training points and candidates may be given as a 1-d array of numbers: kernels, Gaussian processes, the data store and every model treat them as points with one coordinate, and points with different numbers of coordinates are rejected.", "quantifier": "all kernels, arrays and histories of calls", "why_tests_cant": "the examples use 1-d arrays with the preference GP only; tests of the other models use rows", "anchors": ["src/lop/kernels/RBF_kern.py:103-121", "src/lop/kernels/RBF_kern_zeroed.py:49-93", "src/lop/models/PreferenceModel.py:187-279", "src/lop/models/GP.py:65-124", "src/lop/models/PreferenceLinear.py:49-77"]}
{"id": "C173", "title": "Fitting the linear model learns from its labels", "statement": "In double precision a label pulls the value of the preferred point up, and fitting the linear model to labels changes weights that contradict them.", "quantifier": "all training points, labels, noise levels, drawn weights, orders of summation and objectives", "why_tests_cant": "the tests fit points with coordinates between 0 and 10 whose labels a random start contradicts by a few standard deviations at most", "anchors": ["src/lop/models/PreferenceLinear.py:69-142", "src/lop/models/PreferenceModel.py:386-448", "src/lop/probits/PreferenceProbit.py:102-204", "src/lop/probits/ProbitBase.py:33-63"]}
{"id": "C174", "title": "Ratings give numbers and pull towards themselves in double precision", "statement": "In double precision every rating that the data store accepts has positive Beta parameters and finite derivatives and log likelihood, and pulls the value of its point.", "quantifier": "all ratings, values of the points, noise levels, precisions and orders of summation", "why_tests_cant": "the tests rate points with values of a few standard deviations and never pass a missing rating", "anchors": ["src/lop/probits/AbsBoundProbit.py:216-313", "src/lop/models/PreferenceModel.py:243-252", "src/lop/probits/ProbitBase.py:33-43"]}
{"id": "C175", "title": "Study analysis measures how well freshly trained models predict choices", "statement": "For every run of a user study the analysis reports, for each number of training choices, the share of the held-out choices that the model predicts after learning exactly these choices and nothing from other runs, and the spread of this share over the runs.", "quantifier": "all models, runs, orders of the training data and choices", "why_tests_cant": "the analysis script has no tests", "anchors": ["other/study_analysis_2022/read_study.py:24-119", "src/lop/utilities/preference_pairs.py:27-42", "src/lop/models/PreferenceModel.py:166-279", "src/lop/models/Model.py:136-151"]}
{"id": "C176", "title": "Line searches avoid steps whose objective is missing or infinite", "statement": "When the objective is a number for short steps and minus infinity or missing (NaN) for longer ones, the line searches of the Newton update return a step whose objective is a number.", "quantifier": "all objectives, bounds, numbers of iterations and steps from which on the objective is missing", "why_tests_cant": "the tests search along parabolas that have a value everywhere", "anchors": ["src/lop/models/PreferenceModel.py:386-471"]}
{"id": "C177", "title": "The pictures of a run show what was learned", "statement": "The recorded picture shows at every point of the plotted square the value there, the scaled utility lies between -1 and 1, the arrow of every preference points to the preferred point, exactly the prior points are left out, and the band around the mean regret is one standard error wide.", "quantifier": "all bounds, resolutions, functions, utilities, training points, labels, prior points and regrets", "why_tests_cant": "pictures are only looked at; the tests never draw one", "anchors": ["experiments/GP_visualization.py:12-164"]}
{"id": "C178", "title": "The recorded files of a run sort in the order of training", "statement": "Every training step is recorded in its own file, and the names of the files sort in the order of the steps.", "quantifier": "all folders and numbers of training steps", "why_tests_cant": "runs in tests are shorter than ten steps and the files are not listed", "anchors": ["experiments/experiment_helper.py:677-682", "experiments/experiment_helper.py:790-795", "experiments/GP_visualization.py:38-47"]}
{"id": "C179", "title": "Plotted preferences point from the worse to the better point", "statement": "plot_preference draws one arrow for every stored preference, from the worse to the better point and for plain numbers at the height of their utilities, shows ratings at their values, and refuses points with more than two rewards.", "quantifier": "all training points of one or two rewards, fitted utilities, preferences and ratings", "why_tests_cant": "plots are only looked at; the tests never call the function", "anchors": ["src/lop/models/PreferenceModel.py:482-541"]}
{"id": "C180", "title": "Ratings computed from utilities are the middle of their bin", "statement": "The rating given for a utility within the bounds is the middle of the fifth of the bounds it lies in, so that it is between 0 and 1, and larger utilities do not get smaller ratings.", "quantifier": "all bounds and utilities", "why_tests_cant": "the function has no test", "anchors": ["experiments/experiment_helper.py:429-445"]}
{"id": "C181", "title": "Every training point keeps the observation and the uncertainty given for it", "statement": "A Gaussian process uses every training point with the output and the uncertainty that were given for it, as a number for all or as a vector with one entry per output, whatever else is added before or after; arguments that do not give one output and one uncertainty per point are rejected.", "quantifier": "every sequence of calls of add and reset; every mean function; outputs as arrays or lists, uncertainties as numbers, arrays or lists of every length", "why_tests_cant": "which uncertainty a point gets depends on the lengths of the arrays of all calls before and after it", "anchors": ["src/lop/models/GP.py:44-78", "src/lop/models/GP.py:92-124"]}
{"id": "C182", "title": "Turning all answers upside down turns the learned utilities upside down", "statement": "When every comparison is decided the other way and every rating and every label is given from the other end of its scale, the fitted utilities and the predicted means change their signs, and the predicted variances and what is learned about the noise stay the same.", "quantifier": "all comparisons, ratings and labels, points, kernels, noise parameters and starting values", "why_tests_cant": "a test compares one pair of fits up to a tolerance and would miss a bias of one end of the scale", "anchors": ["src/lop/models/PreferenceGP.py:192-288", "src/lop/models/PreferenceGP.py:94-149", "src/lop/probits/AbsBoundProbit.py:237-309", "src/lop/probits/OrdinalProbit.py:76-92", "src/lop/probits/PreferenceProbit.py:106-204"]}
{"id": "C183", "title": "Hyper-parameters survive a failed assignment and a picture of them", "statement": "Setting the parameters of a kernel gives every parameter its entry of the vector; when the vector is too short the call fails and the parameters stay as they were; drawing the surface of the hyper-parameters leaves them as they were.", "quantifier": "all kernels with their sums and products of any depth, all vectors of all lengths, all models", "why_tests_cant": "a test with a short vector checks the exception and not the half-assigned kernel; the picture is only called by hand", "anchors": ["src/lop/kernels/KernelFunc.py:157-161", "src/lop/kernels/RBF_kern.py:59-61", "src/lop/kernels/LinearKern.py:62-65", "src/lop/kernels/PeriodicKern.py:94-97", "src/lop/models/PreferenceGP.py:656-694", "src/lop/models/PreferenceGP.py:346"]}
{"id": "C184", "title": "Periodic and linear covariances in double precision", "statement": "In double precision the covariances of the periodic and of the linear kernel are symmetric numbers, a point has the variance of the kernel with itself, points whole periods apart have the covariance of equal points, and different points are told apart.", "quantifier": "all points up to 2^20 coordinates, all parameters in the stated ranges, every order of addition of np.sum", "why_tests_cant": "overflow, underflow and lost phases need extreme or far-apart inputs, and a test compares with the same formula in the same arithmetic", "anchors": ["src/lop/kernels/PeriodicKern.py:71-89", "src/lop/kernels/LinearKern.py:108-123"]}
{"id": "C185", "title": "Ratings, grades and removals in whole histories", "statement": "The prediction of a preference GP given ratings or grades in any number of batches comes from a fit in which each point has its own label; a model still predicts after points without comparisons were taken out; after a reset the old data have no influence.", "quantifier": "all histories of batches, all points, labels, configurations and random starts", "why_tests_cant": "wrong labels and stale fits show only after particular interleavings of calls, and a prediction from them looks like any other", "anchors": ["src/lop/models/PreferenceGP.py:97-149", "src/lop/models/PreferenceGP.py:218-288", "src/lop/models/PreferenceModel.py:113-150", "src/lop/models/PreferenceModel.py:187-279"]}
{"id": "C186", "title": "The tuning objectives of HumanChoiceUser2 have a single valley", "statement": "The objectives obj and rate_obj that a bounded scalar search minimises have no hill between two better values; each target probability strictly between 1/2 and 1 is met by exactly one noise level and, from the rationality at which the mean is below the target, by exactly one rationality; other targets are met by none and push the search to an end of its interval.", "quantifier": "all lists of utility differences, not all of them zero, all targets, all noise levels and rationalities", "why_tests_cant": "a search that ends in a wrong valley returns a plausible number; existence and uniqueness quantify over a continuum", "anchors": ["src/lop/utilities/HumanChoiceUser2.py:obj", "src/lop/utilities/HumanChoiceUser2.py:rate_obj", "src/lop/utilities/HumanChoiceUser2.py:learn_beta"]}
{"id": "C187", "title": "The tuning objectives of HumanChoiceUser2 in double precision", "statement": "In floating point obj and rate_obj are numbers between 0 and 1 for every rationality and noise level, also where the exponential overflows or the scale underflows; they are NaN only when no pair counts; different rationalities give different objectives, and a target that cannot be met is not met.", "quantifier": "all lists of up to 2^53 finite differences, all orders of summation, all rationalities, noise levels and targets", "why_tests_cant": "overflow and absorption occur only for particular magnitudes, and the search hides them", "anchors": ["src/lop/utilities/HumanChoiceUser2.py:obj", "src/lop/utilities/HumanChoiceUser2.py:rate_obj"]}
{"id": "C188", "title": "The noise of the sampled tuning objectives does not favour wrong users", "statement": "Averaged over the random draws, the objectives that HumanChoiceUser.learn_beta minimises are least for the user that picks the best option with the wanted probability; a rationality or noise level that misses the aim does not look better, on average, than one that meets it.", "quantifier": "all query matrices, rationalities, noise levels and aims above one half", "why_tests_cant": "the bias is hidden in the noise of single runs; one would have to average over very many draws", "anchors": ["src/lop/utilities/synthetic_user.py:HumanChoiceUser.sampled_objective", "src/lop/utilities/synthetic_user.py:HumanChoiceUser.rate_sampled_objective"]}
{"id": "C189", "title": "Ratings of synthetic users in double precision", "statement": "In floating point the ratings of PerfectUser and HumanChoiceUser are numbers strictly between 0 and 1, close to the exact sigmoid, and better options get higher ratings; no utility or noise makes them NaN.", "quantifier": "all finite utilities, steepnesses, noise levels and noise draws", "why_tests_cant": "overflow and saturation occur only for particular magnitudes", "anchors": ["src/lop/utilities/synthetic_user.py:sigmoid", "src/lop/utilities/synthetic_user.py:PerfectUser.rate", "src/lop/utilities/synthetic_user.py:HumanChoiceUser.rate"]}
