{
 "claims": [
  {
   "property": "C01",
   "status": "proved",
   "theorems": [
    "C01_posteriors_are_distributions"
   ],
   "note": "exact reals; likelihood and prior are arbitrary non-negative functions"
  },
  {
   "property": "C02",
   "status": "proved",
   "theorems": [
    "C02_smoothing_is_exact"
   ],
   "note": "exact reals; independent path-sum specification in Spec/Hmm.v and Spec/Kernel.v; flat prior or no resets"
  },
  {
   "property": "C03",
   "status": "proved",
   "theorems": [
    "C03_evidence"
   ],
   "note": "exact reals; full fits under the hypotheses of C02, forward-only and evidence-only fits for all stable priors"
  },
  {
   "property": "C04",
   "status": "proved",
   "theorems": [
    "C04_filtering_is_exact",
    "C04_future_is_irrelevant",
    "C04_last_step"
   ],
   "note": "future-irrelevance for every model, prior and number type"
  },
  {
   "property": "C05",
   "status": "proved",
   "theorems": [
    "C05_evidence_only",
    "C05_full_fit",
    "C05_evidence_agrees",
    "C05_full_fit_stops_refuted"
   ],
   "note": "the unconditional claim is refuted: a full fit can stop in the backward pass (C05_full_fit_stops_refuted)"
  },
  {
   "property": "C06",
   "status": "proved",
   "theorems": [
    "C06_stop",
    "C06_stop_any_model"
   ],
   "note": "forward, evidence-only and full fits"
  },
  {
   "property": "C07",
   "status": "proved",
   "theorems": [
    "C07_likelihood",
    "C07_dimensions",
    "C07_insert"
   ],
   "note": "Static model for insertion; any model for the likelihood"
  },
  {
   "property": "C08",
   "status": "proved",
   "theorems": [
    "C08_batch",
    "C08_order"
   ],
   "note": "any prior shape that is stable; all three fit modes"
  },
  {
   "property": "C09",
   "status": "proved",
   "theorems": [
    "C09_change_point",
    "C09_serial",
    "C09_prior_twice",
    "C09_nonflat_refuted"
   ],
   "note": "full fits: flat prior; non-flat priors: C09_prior_twice gives the exact posteriors, C09_nonflat_refuted refutes agreement with separate studies"
  },
  {
   "property": "C10",
   "status": "proved",
   "theorems": [
    "C10_refit",
    "C10_array_overwritten",
    "C10_static_array",
    "C10_array_refuted"
   ],
   "note": "C10_refit: any carrier, any transition model, any prior that is not an array, any fit mode: the observation model (with prior), data and grid are unchanged, refitting gives the same results and any other fit mode gives what it would have given without the first fit. C10_array_overwritten/C10_static_array: exact content of an array prior after a forward fit; C10_array_refuted: executed example in which the second fit differs."
  },
  {
   "property": "C11",
   "status": "proved",
   "theorems": [
    "C11_scale",
    "C11_sum_one",
    "C11_sum_one_refuted"
   ],
   "note": "C11_scale: arbitrary transition models and values (also non-finite ones), array, function and constant priors that differ by a positive factor and do not sum to exactly one have the same outcome. C11_sum_one: if one of them sums to exactly one, same posteriors, means and warnings, log-evidence differs by the log cell volume; C11_sum_one_refuted: executed. SymPy priors are densities used as they are and are not covered by the claim."
  },
  {
   "property": "C12",
   "status": "proved",
   "theorems": [
    "C12_full_fit",
    "C12_forward_fit"
   ],
   "note": "exact reals; NaN case shown by executable example"
  },
  {
   "property": "C13",
   "status": "proved",
   "theorems": [
    "C13_mean_values"
   ],
   "note": "For every successful fit (forward-only or full) with any nested model of the runnable fragment: mean values are expectations under the marginals returned by the getter and lie within the parameter values."
  },
  {
   "property": "C14",
   "status": "proved",
   "theorems": [
    "C14_transition",
    "C14_conserved"
   ],
   "note": "Any grid shape, target axis, sigma >= 0: exact transition kernel (discretised reflected Gaussian), symmetric, row sums 1, only along the axis; conservation, non-negativity, flat and sigma = 0 cases for all arrays of numbers."
  },
  {
   "property": "C15",
   "status": "proved",
   "theorems": [
    "C15_regime_switch"
   ],
   "note": "For every distribution on every grid; explicit result, ordering, floor, bounds of the normalisation constant."
  },
  {
   "property": "C16",
   "status": "proved",
   "theorems": [
    "C16_not_equal",
    "C16_uniform_nan",
    "C16_flat_start_refuted"
   ],
   "note": "Non-uniform: explicit, normalised, order reversing. Uniform: all values NaN; and a study whose first datum leaves the flat prior unchanged therefore ends with log-evidence -inf (C16_flat_start_refuted)."
  },
  {
   "property": "C17",
   "status": "proved",
   "theorems": [
    "C17_filtering",
    "C17_full_fit"
   ],
   "note": "For priors that are not arrays; C59_independent describes array priors."
  },
  {
   "property": "C18",
   "status": "proved",
   "theorems": [
    "C18_schedule",
    "C18_interval"
   ],
   "note": "Any constructed serial model with arbitrary sub-models (also non-linear, nested) and numeric break times; forward step at t and backward step at t+1."
  },
  {
   "property": "C19",
   "status": "proved",
   "theorems": [
    "C19_serial",
    "C19_order_refuted",
    "C19_break_rejected"
   ],
   "note": "All argument lists whose break times are numbers, non-empty arrays or 'all'. C19_order_refuted: an unordered sequence is accepted if an 'all' lies between."
  },
  {
   "property": "C20",
   "status": "proved",
   "theorems": [
    "C20_order",
    "C20_nested",
    "C20_trivial",
    "C20_reversed_refuted"
   ],
   "note": "Any sub-models; any number type. Flattening shown for steps and for complete fits. C20_reversed_refuted: the backward step does not reverse the order."
  },
  {
   "property": "C21",
   "status": "proved",
   "theorems": [
    "C21_drift"
   ],
   "note": "scipy.ndimage.shift is an oracle; the theorem is about the amounts of shift."
  },
  {
   "property": "C22",
   "status": "proved",
   "theorems": [
    "C22_change_point_skipped",
    "C22_full_fit",
    "C22_depends_on_future_refuted"
   ],
   "note": "C22_depends_on_future_refuted: with spacing 2 posteriors before the change-point depend on later data"
  },
  {
   "property": "C23",
   "status": "proved",
   "theorems": [
    "C23_segments",
    "C23_timestamps",
    "C23_default_timestamps"
   ],
   "note": ""
  },
  {
   "property": "C24",
   "status": "proved",
   "theorems": [
    "C24_set_all",
    "C24_set_selected",
    "C24_unknown",
    "C24_blank_name_refuted"
   ],
   "note": "For every transition model made with the constructors (any nesting). C24_blank_name_refuted: a hyper-parameter whose name is a blank cannot be set, because the recursion separates indices by blanks."
  },
  {
   "property": "C25",
   "status": "proved",
   "theorems": [
    "C25_consistency",
    "C25_hyper_refuted",
    "C25_index",
    "C25_value",
    "C25_value_refuted",
    "C25_online",
    "C25_online_set",
    "C25_online_refuted"
   ],
   "note": "C25_hyper_refuted: a HyperStudy without observation model raises AttributeError instead of ConfigurationError. C25_value_refuted: a list as third value of BivariateRandomWalk overwrites the second value. C25_online, C25_online_set for online studies; C25_online_refuted: names of models added after the first data point are not checked."
  },
  {
   "property": "C26",
   "status": "proved",
   "theorems": [
    "C26_aligned",
    "C26_constructors",
    "C26_deterministic_refuted",
    "C26_list_prior_refuted"
   ],
   "note": "C26_deterministic_refuted and C26_list_prior_refuted give the two constructor calls for which values and priors are not aligned: a list of priors for Deterministic, and a prior given as a python list."
  },
  {
   "property": "C27",
   "status": "proved",
   "theorems": [
    "C27_grid",
    "C27_prior",
    "C27_symbolic_refuted"
   ],
   "note": "C27_grid: all combinations exactly once, row-major, with spacings. C27_prior: prior of a combination is the product of the normalised prior densities and integrates to one, for flat, function and array priors. SymPy priors are not normalised by the code (C27_symbolic_refuted)."
  },
  {
   "property": "C28",
   "status": "proved",
   "theorems": [
    "C28_analyses",
    "C28_bayes",
    "C28_proper",
    "C28_succeeds",
    "C28_impossible_refuted",
    "C28_single_refuted"
   ],
   "note": "C28_analyses/C28_bayes for more than one combination, proper single analyses (C28_proper gives a sufficient condition, C28_succeeds existence) and positive total evidence. If every combination has evidence zero the distribution is NaN (C28_impossible_refuted); with a single combination the values of the grid are not used (C28_single_refuted)."
  },
  {
   "property": "C29",
   "status": "proved",
   "theorems": [
    "C29_average",
    "C29_mixture"
   ],
   "note": "C29_average is the general formula including the 1e-300 replacement; C29_mixture the exact mixture without values below 1e-300."
  },
  {
   "property": "C30",
   "status": "proved",
   "theorems": [
    "C30_jobs"
   ],
   "note": "The results of the worker processes are modelled as values (pickling assumed faithful)."
  },
  {
   "property": "C31",
   "status": "proved",
   "theorems": [
    "C31_values",
    "C31_reused"
   ],
   "note": "C31_values, C31_reused; for fits with more than one combination."
  },
  {
   "property": "C32",
   "status": "proved",
   "theorems": [
    "C32_fitted",
    "C32_marginal",
    "C32_joint",
    "C32_consistent",
    "C32_number",
    "C32_repeatable",
    "C32_rescaled",
    "C32_rescaled_joint",
    "C32_query_refuted"
   ],
   "note": "C32_marginal, C32_joint, C32_consistent for every fitted hyper-study (C32_fitted: fit leads to one); C32_repeatable for any sequence of queries with three or more hyper-parameters (C32_marginal also with two); C32_rescaled and C32_rescaled_joint give the exact in-place rescaling in the excepted cases."
  },
  {
   "property": "C33",
   "status": "proved",
   "theorems": [
    "C33_combinations",
    "C33_prior",
    "C33_bayes",
    "C33_average",
    "C33_fitted",
    "C33_succeeds",
    "C33_single_refuted",
    "C33_few",
    "C33_unordered_refuted",
    "C33_refused"
   ],
   "note": "C33_combinations: the analysed combinations are exactly the elements of the product grid with strictly increasing times in model order, for any number of points and other hyper-parameters. C33_prior: admissible combinations keep the product prior up to a common factor, others get exactly 0, total mass is preserved and integrates to one. C33_bayes / C33_average: posterior probabilities by Bayes' rule, zero for inadmissible combinations, integrating to one. C33_succeeds: sufficient conditions for fit to succeed. C33_refused: which transition models are refused, and with which error. C33_single_refuted: with only one admissible combination fit raises ValueError (or yields NaN). C33_few: with at most one admissible combination (and no earlier distribution) fit is the plain analysis and reports NaN for the admissible, 0 for the inadmissible combinations. C33_unordered_refuted: fixed change-point times out of order are analysed all the same."
  },
  {
   "property": "C34",
   "status": "proved",
   "theorems": [
    "C34_durations",
    "C34_two_points",
    "C34_missing",
    "C34_missing_refuted"
   ],
   "note": "C34_two_points: for two points the distribution of durations is the push-forward of the joint distribution, sums to one, for all value lists; rounding to ten digits is assumed not to identify different durations. C34_durations: the same for two of any number of points whenever every in-order duration occurs in an admissible combination; C34_missing: otherwise IndexError; C34_missing_refuted: concrete crash with three points."
  },
  {
   "property": "C35",
   "status": "proved",
   "theorems": [
    "C35_batch",
    "C35_single",
    "C35_succeeds",
    "C35_fits",
    "C35_exact",
    "C35_change_refuted",
    "C35_impossible_refuted"
   ],
   "note": "The online distributions and log-evidences equal those of forward-only fits of all data so far (C35_batch, C35_single; time-dependent models frozen at time -1, via asBatch), the exact filtering distribution (C35_exact), steps succeed (C35_succeeds), reference fits exist (C35_fits). C35_change_refuted: change-points never occur online. C35_impossible_refuted: NaN distributions for impossible data."
  },
  {
   "property": "C36",
   "status": "proved",
   "theorems": [
    "C36_models",
    "C36_local",
    "C36_prior",
    "C36_prior_refuted"
   ],
   "note": "Probabilities are normalised evidences; local ones are evidence ratio x prior; the log-evidence is the prior-weighted sum; C36_prior normalises the prior. C36_prior_refuted: the prior has no influence on the current probabilities or the marginal distribution."
  },
  {
   "property": "C37",
   "status": "proved",
   "theorems": [
    "C37_hyper",
    "C37_mixture",
    "C37_grid",
    "C37_setup",
    "C37_hyperstudy"
   ],
   "note": "Hyper-parameter distribution, mixture, hyper-grid and set-up; evidence relation with a forward-only HyperStudy."
  },
  {
   "property": "C38",
   "status": "proved",
   "theorems": [
    "C38_history",
    "C38_independent"
   ],
   "note": "For any number type: histories are exactly the values shown after each completed step; results do not depend on storeHistory."
  },
  {
   "property": "C39",
   "status": "proved",
   "theorems": [
    "C39_waits",
    "C39_window",
    "C39_stream",
    "C39_list_refuted"
   ],
   "note": "Waiting, window and time stamps for any segment length. C39_list_refuted: several data points passed as one list lead to one update only."
  },
  {
   "property": "C40",
   "status": "proved",
   "theorems": [
    "C40_relation",
    "C40_rules",
    "C40_study",
    "C40_argument_refuted"
   ],
   "note": "C40_relation for every query comparing two expressions (any nesting of + - * / ^, unary signs, brackets and named functions) about parameters of one time step of one study, current values of an OnlineStudy without history, or hyper-parameters of a HyperStudy; C40_rules the rules for complementary relations; C40_study the whole path setup, fit, parser. C40_argument_refuted: with several studies the argument t is translated with the time stamps of the first study only. Power and named functions are oracles constrained only where they are defined."
  },
  {
   "property": "C41",
   "status": "proved",
   "theorems": [
    "C41_independent",
    "C41_total",
    "C41_operation",
    "C41_other_time",
    "C41_brackets_refuted",
    "C41_ingredient_refuted",
    "C41_other_time_refuted"
   ],
   "note": "C41_independent and C41_operation give product probabilities for operands of different studies, of hyper-parameters and parameters, or of the same parameter at different times; C41_total their sum. C41_other_time states what is computed for different parameters at different times. C41_ingredient_refuted, C41_brackets_refuted and C41_other_time_refuted show that dependent operands are multiplied as if independent, that brackets around the left side change the answer, and that different parameters at different times get a wrong answer."
  },
  {
   "property": "C42",
   "status": "proved",
   "theorems": [
    "C42_total",
    "C42_bins",
    "C42_two_values",
    "C42_nonfinite"
   ],
   "note": "C42_total: the sum for every distribution that is returned. C42_bins: edges and probabilities of all bins, and IndexError if the range contains the largest gap only once (C42_two_values). C42_nonfinite: with values that are not finite, for the array of values and probabilities the expression evaluates to."
  },
  {
   "property": "C43",
   "status": "proved",
   "theorems": [
    "C43_cint",
    "C43_oint"
   ],
   "note": ""
  },
  {
   "property": "C44",
   "status": "proved",
   "theorems": [
    "C44_grid_row_major",
    "C44_grid_complete",
    "C44_values_as_given",
    "C44_lattice_constant",
    "C44_transition_model_lattice",
    "C44_reachable_configured"
   ],
   "note": ""
  },
  {
   "property": "C45",
   "status": "proved",
   "theorems": [
    "C45_distribution",
    "C45_average",
    "C45_all",
    "C45_errors",
    "C45_single_step_refuted"
   ],
   "note": "Any number of parameters and grid sizes, any state with posteriors (link to fits in C13_mean_values). Getters are pure functions in the model: they assign no attribute in the code. C45_single_step_refuted: getParameterDistributions fails for a single time step."
  },
  {
   "property": "C46",
   "status": "proved",
   "theorems": [
    "C46_mixture",
    "C46_probability",
    "C46_errors"
   ],
   "note": "C46_mixture, C46_probability for every study that holds posterior distributions (C13_mean_values shows that fits produce them), all observation points, one time step or time average; C46_errors for the exceptions. If all given points are impossible every value is NaN (part of C46_probability)."
  },
  {
   "property": "C47",
   "status": "proved",
   "theorems": [
    "C47_alpha",
    "C47_bivariate",
    "C47_kernel",
    "C47_grid_refuted"
   ],
   "note": "C47_alpha, C47_bivariate: for any history of steps and hyper-parameter changes on one grid the cached kernel gives what leafStep (no cache) gives; for the alpha-stable walk with the kernel of Model/AlphaStable.v. C47_kernel: exact description when the grid changes. C47_grid_refuted: concrete case in which the stale kernel gives another result. Failing constructions of a kernel in histories with changing grids are excluded in C47_kernel."
  },
  {
   "property": "C48",
   "status": "proved",
   "theorems": [
    "C48_product",
    "C48_order"
   ],
   "note": "any model, any fit mode"
  },
  {
   "property": "C49",
   "status": "proved",
   "theorems": [
    "C49_normal_normalised",
    "C49_gaussian",
    "C49_whiteNoise",
    "C49_gaussianMean",
    "C49_ar1",
    "C49_scaledAr1",
    "C49_laplace",
    "C49_poisson",
    "C49_poisson_counts",
    "C49_bernoulli",
    "C49_bernoulli_outside",
    "C49_poisson_negative_refuted",
    "C49_laplace_normalised",
    "C49_likelihoods",
    "C49_fit",
    "C49_infinite_prior",
    "C49_bernoulli_ends",
    "C49_bernoulli_default",
    "C49_sympy_prior"
   ],
   "note": "C49_gaussian, C49_whiteNoise, C49_gaussianMean, C49_ar1, C49_scaledAr1, C49_laplace, C49_poisson, C49_bernoulli: the likelihood array of every built-in model is the stated density/probability at every grid point. C49_poisson: the probabilities of all counts are non-negative and sum to one (infinite sum); C49_bernoulli likewise for {0,1}; C49_laplace_normalised, C49_normal_normalised: the densities have distribution functions with limits 0 and 1. C49_bernoulli_outside: out-of-range values act like p = 0 and are overwritten in the grid. C49_likelihoods, C49_fit: every model with its default prior meets the hypotheses of the inference theorems. Findings: C49_poisson_negative_refuted, C49_infinite_prior, C49_bernoulli_ends, C49_bernoulli_default (the default Bernoulli model can never be fitted), C49_sympy_prior."
  },
  {
   "property": "C50",
   "status": "proved",
   "theorems": [
    "C50_optimize",
    "C50_default",
    "C50_errors",
    "C50_default_refuted",
    "C50_array_refuted"
   ],
   "note": "C50_optimize: any minimiser (interaction tree asking for any number of points), any transition model, any selection of existing names, any prior that is not an array; exceptions included. C50_default characterises the default selection when there is a hyper-parameter that is no change-/break-point; C50_default_refuted shows that otherwise the change-points are optimised. C50_array_refuted: array priors are overwritten by the fits of the optimisation."
  },
  {
   "property": "C51",
   "status": "proved",
   "theorems": [
    "C51_load",
    "C51_stale_timestamps_refuted",
    "C51_no_timestamps_refuted"
   ],
   "note": ""
  },
  {
   "property": "C52",
   "status": "proved",
   "theorems": [
    "C52_walk",
    "C52_interior",
    "C52_symmetric",
    "C52_independent"
   ],
   "note": "Over the reals, for positive standard deviations and |rho|<1. The convolution of the study is required to be the model of scipy.signal.convolve2d (Model/Bivariate.v)."
  },
  {
   "property": "C53",
   "status": "proved",
   "theorems": [
    "C53_rejects"
   ],
   "note": "C53_rejects is the 'if' part; C28_succeeds (no clash, proper analyses exist) the 'only if' part."
  },
  {
   "property": "C54",
   "status": "proved",
   "theorems": [
    "C54_sequences",
    "C54_distribution",
    "C54_distributions",
    "C54_mean_refuted",
    "C54_getPD_refuted"
   ],
   "note": "C54_sequences for any number type; distributions over the reals, for a stream split at any moment. getParameterMeanValue(t) is refuted (C54_mean_refuted)."
  },
  {
   "property": "C55",
   "status": "proved",
   "theorems": [
    "C55_grid",
    "C55_unknown",
    "C55_nothing",
    "C55_current",
    "C55_past",
    "C55_mean",
    "C55_sequence",
    "C55_past_refuted",
    "C55_scalar_refuted",
    "C55_repeat_refuted"
   ],
   "note": "Over the reals, for hyper-parameters given as arrays (C55_mean and C55_sequence for any values). C55_unknown, C55_nothing: unknown names, and queries before the first data point. The missing factor of past distributions, the exception for single values and the change by repeated queries are refuted variants."
  },
  {
   "property": "C56",
   "status": "proved",
   "theorems": [
    "C56_blocks",
    "C56_repairs",
    "C56_single_refuted"
   ],
   "note": "For any number type; C56_single_refuted shows it for the query after the first data point."
  },
  {
   "property": "C57",
   "status": "proved",
   "theorems": [
    "C57_defaults",
    "C57_fit",
    "C57_constant",
    "C57_constant_refuted",
    "C57_refused"
   ],
   "note": "C57_defaults: configured study with exactly these grids; C57_fit: it can be analysed; C57_constant (all constant data, Gaussian) and C57_constant_refuted: collapse of the grids. Data are assumed to be numbers or NaN (no infinities) in C57_fit."
  },
  {
   "property": "C58",
   "status": "proved",
   "theorems": [
    "C58_local",
    "C58_agreement",
    "C58_average_refuted",
    "C58_undetermined_refuted"
   ],
   "note": "C58_local for any set of single analyses; C58_agreement, C58_average_refuted and C58_undetermined_refuted show that it is not the average."
  },
  {
   "property": "C59",
   "status": "proved",
   "theorems": [
    "C59_change",
    "C59_independent",
    "C59_array_refuted"
   ],
   "note": "C59_change and C59_independent describe the forward-only fit. The full fit and SerialTransitionModel with array priors are not covered. C59_array_refuted: the same prior as function gives other posteriors."
  },
  {
   "property": "C60",
   "status": "proved",
   "theorems": [
    "C60_weights",
    "C60_step",
    "C60_distribution",
    "C60_fit",
    "C60_other_grids",
    "C60_odd_refuted",
    "C60_light_tails_refuted"
   ],
   "note": "C60_weights, C60_step, C60_distribution, C60_fit, C60_other_grids. Exact arithmetic: irfft and fftconvolve are the sums they compute. C60_light_tails_refuted: with tail parameter 2 a fit stores a negative probability; C60_odd_refuted: concrete ValueError with an odd number of grid values."
  },
  {
   "property": "C61",
   "status": "proved",
   "theorems": [
    "C61_names",
    "C61_relations",
    "C61_no_time",
    "C61_unknown_time",
    "C61_argument",
    "C61_history",
    "C61_zero"
   ],
   "note": "C61_names, C61_relations, C61_no_time, C61_unknown_time, C61_argument, C61_history, C61_zero. In C61_no_time and C61_unknown_time all names of the query are of the kind described, and both sides have a value for some values of the names (so that no other error comes first). C61_history: the ConfigurationError provided for studies without history is not reached. C61_zero: division of two plain numbers."
  },
  {
   "property": "C62",
   "status": "proved",
   "theorems": [
    "C62_exists",
    "C62_prior"
   ],
   "note": "C62_exists: the Jeffreys prior (Spec/Fisher.v: scores are derivatives, expectations infinite sums or improper integrals) exists, is positive and unique. C62_prior: the prior of the study is the Jeffreys prior divided by its sum over the grid, for any function that is the Jeffreys prior at every grid point. Values summing to exactly one are excluded (C11)."
  },
  {
   "property": "C63",
   "status": "proved",
   "theorems": [
    "C63_hyper",
    "C63_change",
    "C63_online",
    "C63_past",
    "C63_models_refuted"
   ],
   "note": "HyperStudy, ChangepointStudy and OnlineStudy (with and without history). One study and one transition model per query; several studies are C41. C63_models_refuted: hyper-parameters of different transition models of one OnlineStudy are combined position by position, not as independent quantities. Hypotheses: names unique, evidence positive (as in C28/C33)."
  },
  {
   "property": "C64",
   "status": "proved",
   "theorems": [
    "C64_scipy",
    "C64_order",
    "C64_scipy_likelihoods",
    "C64_scipy_accepted",
    "C64_numpy_likelihoods",
    "C64_numpy_accepted",
    "C64_sympy",
    "C64_sympy_order",
    "C64_sympy_likelihoods",
    "C64_sympy_accepted",
    "C64_unspecified",
    "C64_numpy_names_refuted",
    "C64_scipy_duplicate_refuted",
    "C64_scipy_shape_refuted",
    "C64_sympy_symbol_refuted",
    "C64_numpy_values_refuted"
   ],
   "note": "Densities of SciPy and SymPy and user functions are oracles (any functions of the parameter values). C64_numpy_names_refuted: parameters of NumPy models go by position, even if the argument names say otherwise. C64_scipy_duplicate_refuted: a name given twice is accepted, the first values have no effect. C64_scipy_shape_refuted, C64_sympy_symbol_refuted, C64_numpy_values_refuted: missing shapes, symbols or values are accepted by the constructor and make every likelihood fail. C64_unspecified: models without values can never be set in a study. Hypotheses of the positive theorems: names not repeated, all shapes/symbols covered."
  },
  {
   "property": "C65",
   "status": "proved",
   "theorems": [
    "C65_exists",
    "C65_prior",
    "C65_errors",
    "C65_time",
    "C65_missing",
    "C65_evidence",
    "C65_length_refuted",
    "C65_scaled_refuted"
   ],
   "note": "C65_prior, C65_exists, C65_errors, C65_time; the claims that fail are refuted or stated as they are: C65_length_refuted (Jeffreys prior of one observation too many), C65_scaled_refuted (change of variables missing for ScaledAR1), C65_missing (NaN everywhere), C65_evidence (evidence multiplied by the cell volume)."
  },
  {
   "property": "C66",
   "status": "proved",
   "theorems": [
    "C66_set",
    "C66_set_rejects",
    "C66_order",
    "C66_last",
    "C66_refused",
    "C66_needed",
    "C66_estimate_refuted"
   ],
   "note": "C66_set, C66_set_rejects, C66_order, C66_last, C66_refused, C66_needed; C66_estimate_refuted: with estimated parameter values the order of the calls matters. C66_last: time stamps of the new data have to be of the right number or left out (otherwise the old ones are kept)."
  },
  {
   "property": "C67",
   "status": "proved",
   "theorems": [
    "C67_keeps",
    "C67_modes"
   ],
   "note": "C67_modes (several combinations; for the full mode no combination with log-evidence -inf, as the backward pass may stop an analysis, C05_full_fit_stops_refuted) and C67_keeps (also change-point studies). A full fit overwrites the local evidence, so it is compared between forward-only and evidence-only runs."
  },
  {
   "property": "C68",
   "status": "proved",
   "theorems": [
    "C68_reversal",
    "C68_spacing_refuted",
    "C68_regime_refuted"
   ],
   "note": "C68_reversal. Change-points inside serial models are not covered (the mirrored model is not a serial model); C68_spacing_refuted and C68_regime_refuted show that equal time steps and linear transition models are needed. That the prior must be flat is not shown separately."
  },
  {
   "property": "C69",
   "status": "proved",
   "theorems": [
    "C69_again",
    "C69_priors"
   ],
   "note": "C69_again (results of the second fit), C69_priors (hyper-priors left by a fit; values: C31_values). Symbolic (SymPy) hyper-priors are kept but the theorem covers default, function and array priors only. ChangepointStudy.fit is not covered."
  },
  {
   "property": "C70",
   "status": "proved",
   "theorems": [
    "C70_exchange",
    "C70_hyper",
    "C70_order_refuted",
    "C70_array_refuted"
   ],
   "note": "C70_exchange, C70_hyper; the rules are the inductive relation equiv of Spec/Equiv.v. C70_array_refuted: not for array priors (C59). C70_order_refuted: sub-models of combined models do not commute in general. Deterministic, alpha-stable and bivariate models are not part of the rules."
  },
  {
   "property": "C71",
   "status": "proved",
   "theorems": [
    "C71_fit",
    "C71_hyper",
    "C71_change",
    "C71_deterministic_refuted"
   ],
   "note": "C71_fit, C71_hyper, C71_change; the shifted model, the condition on Deterministic models and the columns that are shifted are defined in Spec/Origin.v. C71_deterministic_refuted: a quadratic function counted from the origin does depend on it. Hyper-priors given as functions or random variables of change-points are excluded (they refer to time), and so are other hyper-parameters with the value 'all'."
  },
  {
   "property": "C72",
   "status": "proved",
   "theorems": [
    "C72_values",
    "C72_nested",
    "C72_target",
    "C72_several"
   ],
   "note": "C72_values, C72_nested (combined and serial models), C72_target, C72_several. The list given as third value of BivariateRandomWalk is excluded (C25_value_refuted)."
  },
  {
   "property": "C73",
   "status": "proved",
   "theorems": [
    "C73_units",
    "C73_changes",
    "C73_local",
    "C73_changes_refuted",
    "C73_local_refuted",
    "C73_uneven_refuted"
   ],
   "note": "C73_units (no change-points), C73_changes (evidence with change-points), C73_local. Not invariant: C73_changes_refuted, C73_local_refuted, C73_uneven_refuted. Change-points combined with other models and hyper-studies are not covered."
  },
  {
   "property": "C74",
   "status": "proved",
   "theorems": [
    "C74_factors",
    "C74_regime_refuted",
    "C74_hyper"
   ],
   "note": "C74_factors (all fit modes; full fits without RegimeSwitch) and C74_hyper (hyper-studies); C74_regime_refuted shows that RegimeSwitch has to be excluded: its backward step applies the floor before normalisation. Oracles (spline shift, convolutions) are assumed to be linear."
  },
  {
   "property": "C75",
   "status": "proved",
   "theorems": [
    "C75_rescaled",
    "C75_models",
    "C75_defaults"
   ],
   "note": "C75_rescaled is the general statement (any observation model whose likelihood is a density of the data in the other unit, with change-points); C75_models instantiates it for the six built-in models with a unit, C75_defaults starts from loadData/setTM/setOM with default parameter values and priors. Limits: see the statement (no RegimeSwitch in full fits, no prior summing to exactly one, finite or missing data; for Gaussian, Laplace, WhiteNoise, AR1 and ScaledAR1 one-dimensional data)."
  },
  {
   "property": "C76",
   "status": "proved",
   "theorems": [
    "C76_selection",
    "C76_fit",
    "C76_hyper",
    "C76_stale_refuted"
   ],
   "note": "C76_selection (state after optimize), C76_fit (Study.fit ignores the selection), C76_hyper (an unknown selected name blocks hyper-studies), C76_stale_refuted (a stale selection of a known name gives wrong results silently). States after exceptions raised later in the optimisation are not modelled."
  },
  {
   "property": "C77",
   "status": "proved",
   "theorems": [
    "C77_likelihood_only",
    "C77_origin",
    "C77_defaults"
   ],
   "note": "C77_likelihood_only: congruence of fit for studies with equal likelihood and prior values on the grid, for all transition models and over any number type. C77_origin: shifted data and location parameter (Gaussian, Laplace, GaussianMean), exact equality of posteriors and evidence; the statement on mean values is for posteriors that are distributions (C01). C77_defaults: default parameter values and priors."
  }
 ]
}