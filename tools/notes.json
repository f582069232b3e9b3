{
"C01": [
"proved",
"exact reals; likelihood and prior are arbitrary non-negative functions"
],
"C02": [
"proved",
"exact reals; independent path-sum specification in Spec/Hmm.v and Spec/Kernel.v; flat prior or no resets"
],
"C03": [
"proved",
"exact reals; full fits under the hypotheses of C02, forward-only and evidence-only fits for all stable priors"
],
"C04": [
"proved",
"future-irrelevance for every model, prior and number type"
],
"C05": [
"proved",
"the unconditional claim is refuted: a full fit can stop in the backward pass (C05_full_fit_stops_refuted)"
],
"C06": [
"proved",
"forward, evidence-only and full fits"
],
"C07": [
"proved",
"Static model for insertion; any model for the likelihood"
],
"C08": [
"proved",
"any prior shape that is stable; all three fit modes"
],
"C09": [
"proved",
"full fits: flat prior; non-flat priors: C09_prior_twice gives the exact posteriors, C09_nonflat_refuted refutes agreement with separate studies"
],
"C10": [
"proved",
"C10_refit: any carrier, any transition model, any prior that is not an array, any fit mode: the observation model (with prior), data and grid are unchanged, refitting gives the same results and any other fit mode gives what it would have given without the first fit. C10_array_overwritten/C10_static_array: exact content of an array prior after a forward fit; C10_array_refuted: executed example in which the second fit differs."
],
"C11": [
"proved",
"C11_scale: arbitrary transition models and values (also non-finite ones), array, function and constant priors that differ by a positive factor and do not sum to exactly one have the same outcome. C11_sum_one: if one of them sums to exactly one, same posteriors, means and warnings, log-evidence differs by the log cell volume; C11_sum_one_refuted: executed. SymPy priors are densities used as they are and are not covered by the claim."
],
"C12": [
"proved",
"exact reals; NaN case shown by executable example"
],
"C13": [
"proved",
"For every successful fit (forward-only or full) with any nested model of the runnable fragment: mean values are expectations under the marginals returned by the getter and lie within the parameter values."
],
"C14": [
"proved",
"Any grid shape, target axis, sigma >= 0: exact transition kernel (discretised reflected Gaussian), symmetric, row sums 1, only along the axis; conservation, non-negativity, flat and sigma = 0 cases for all arrays of numbers."
],
"C15": [
"proved",
"For every distribution on every grid; explicit result, ordering, floor, bounds of the normalisation constant."
],
"C16": [
"proved",
"Non-uniform: explicit, normalised, order reversing. Uniform: all values NaN; and a study whose first datum leaves the flat prior unchanged therefore ends with log-evidence -inf (C16_flat_start_refuted)."
],
"C17": [
"proved",
"For priors that are not arrays; C59_independent describes array priors."
],
"C18": [
"proved",
"Any constructed serial model with arbitrary sub-models (also non-linear, nested) and numeric break times; forward step at t and backward step at t+1."
],
"C19": [
"proved",
"All argument lists whose break times are numbers, non-empty arrays or 'all'. C19_order_refuted: an unordered sequence is accepted if an 'all' lies between."
],
"C20": [
"proved",
"Any sub-models; any number type. Flattening shown for steps and for complete fits. C20_reversed_refuted: the backward step does not reverse the order."
],
"C21": [
"proved",
"scipy.ndimage.shift is an oracle; the theorem is about the amounts of shift."
],
"C22": [
"proved",
"C22_depends_on_future_refuted: with spacing 2 posteriors before the change-point depend on later data"
],
"C23": [
"proved",
""
],
"C24": [
"proved",
"For every transition model made with the constructors (any nesting). C24_blank_name_refuted: a hyper-parameter whose name is a blank cannot be set, because the recursion separates indices by blanks."
],
"C25": [
"proved",
"C25_hyper_refuted: a HyperStudy without observation model raises AttributeError instead of ConfigurationError. C25_value_refuted: a list as third value of BivariateRandomWalk overwrites the second value. C25_online, C25_online_set for online studies; C25_online_refuted: names of models added after the first data point are not checked."
],
"C26": [
"proved",
"C26_deterministic_refuted and C26_list_prior_refuted give the two constructor calls for which values and priors are not aligned: a list of priors for Deterministic, and a prior given as a python list."
],
"C27": [
"proved",
"C27_grid: all combinations exactly once, row-major, with spacings. C27_prior: prior of a combination is the product of the normalised prior densities and integrates to one, for flat, function and array priors. SymPy priors are not normalised by the code (C27_symbolic_refuted)."
],
"C28": [
"proved",
"C28_analyses/C28_bayes for more than one combination, proper single analyses (C28_proper gives a sufficient condition, C28_succeeds existence) and positive total evidence. If every combination has evidence zero the distribution is NaN (C28_impossible_refuted); with a single combination the values of the grid are not used (C28_single_refuted)."
],
"C29": [
"proved",
"C29_average is the general formula including the 1e-300 replacement; C29_mixture the exact mixture without values below 1e-300."
],
"C30": [
"proved",
"The results of the worker processes are modelled as values (pickling assumed faithful)."
],
"C31": [
"proved",
"C31_values, C31_reused; for fits with more than one combination."
],
"C32": [
"proved",
"C32_marginal, C32_joint, C32_consistent for every fitted hyper-study (C32_fitted: fit leads to one); C32_repeatable for any sequence of queries with three or more hyper-parameters (C32_marginal also with two); C32_rescaled and C32_rescaled_joint give the exact in-place rescaling in the excepted cases."
],
"C33": [
"proved",
"C33_combinations: the analysed combinations are exactly the elements of the product grid with strictly increasing times in model order, for any number of points and other hyper-parameters. C33_prior: admissible combinations keep the product prior up to a common factor, others get exactly 0, total mass is preserved and integrates to one. C33_bayes / C33_average: posterior probabilities by Bayes' rule, zero for inadmissible combinations, integrating to one. C33_succeeds: sufficient conditions for fit to succeed. C33_refused: which transition models are refused, and with which error. C33_single_refuted: with only one admissible combination fit raises ValueError (or yields NaN). C33_few: with at most one admissible combination (and no earlier distribution) fit is the plain analysis and reports NaN for the admissible, 0 for the inadmissible combinations. C33_unordered_refuted: fixed change-point times out of order are analysed all the same."
],
"C34": [
"proved",
"C34_two_points: for two points the distribution of durations is the push-forward of the joint distribution, sums to one, for all value lists; rounding to ten digits is assumed not to identify different durations. C34_durations: the same for two of any number of points whenever every in-order duration occurs in an admissible combination; C34_missing: otherwise IndexError; C34_missing_refuted: concrete crash with three points."
],
"C35": [
"proved",
"The online distributions and log-evidences equal those of forward-only fits of all data so far (C35_batch, C35_single; time-dependent models frozen at time -1, via asBatch), the exact filtering distribution (C35_exact), steps succeed (C35_succeeds), reference fits exist (C35_fits). C35_change_refuted: change-points never occur online. C35_impossible_refuted: NaN distributions for impossible data."
],
"C36": [
"proved",
"Probabilities are normalised evidences; local ones are evidence ratio x prior; the log-evidence is the prior-weighted sum; C36_prior normalises the prior. C36_prior_refuted: the prior has no influence on the current probabilities or the marginal distribution."
],
"C37": [
"proved",
"Hyper-parameter distribution, mixture, hyper-grid and set-up; evidence relation with a forward-only HyperStudy."
],
"C38": [
"proved",
"For any number type: histories are exactly the values shown after each completed step; results do not depend on storeHistory."
],
"C39": [
"proved",
"Waiting, window and time stamps for any segment length. C39_list_refuted: several data points passed as one list lead to one update only."
],
"C40": [
"proved",
"C40_relation for every query comparing two expressions (any nesting of + - * / ^, unary signs, brackets and named functions) about parameters of one time step of one study, current values of an OnlineStudy without history, or hyper-parameters of a HyperStudy; C40_rules the rules for complementary relations; C40_study the whole path setup, fit, parser. C40_argument_refuted: with several studies the argument t is translated with the time stamps of the first study only. Power and named functions are oracles constrained only where they are defined."
],
"C41": [
"proved",
"C41_independent and C41_operation give product probabilities for operands of different studies, of hyper-parameters and parameters, or of the same parameter at different times; C41_total their sum. C41_other_time states what is computed for different parameters at different times. C41_ingredient_refuted, C41_brackets_refuted and C41_other_time_refuted show that dependent operands are multiplied as if independent, that brackets around the left side change the answer, and that different parameters at different times get a wrong answer."
],
"C42": [
"proved",
"C42_total: the sum for every distribution that is returned. C42_bins: edges and probabilities of all bins, and IndexError if the range contains the largest gap only once (C42_two_values). C42_nonfinite: with values that are not finite, for the array of values and probabilities the expression evaluates to."
],
"C43": [
"proved",
""
],
"C44": [
"proved",
""
],
"C45": [
"proved",
"Any number of parameters and grid sizes, any state with posteriors (link to fits in C13_mean_values). Getters are pure functions in the model: they assign no attribute in the code. C45_single_step_refuted: getParameterDistributions fails for a single time step."
],
"C46": [
"proved",
"C46_mixture, C46_probability for every study that holds posterior distributions (C13_mean_values shows that fits produce them), all observation points, one time step or time average; C46_errors for the exceptions. If all given points are impossible every value is NaN (part of C46_probability)."
],
"C47": [
"proved",
"C47_alpha, C47_bivariate: for any history of steps and hyper-parameter changes on one grid the cached kernel gives what leafStep (no cache) gives; for the alpha-stable walk with the kernel of Model/AlphaStable.v. C47_kernel: exact description when the grid changes. C47_grid_refuted: concrete case in which the stale kernel gives another result. Failing constructions of a kernel in histories with changing grids are excluded in C47_kernel."
],
"C48": [
"proved",
"any model, any fit mode"
],
"C49": [
"proved",
"C49_gaussian, C49_whiteNoise, C49_gaussianMean, C49_ar1, C49_scaledAr1, C49_laplace, C49_poisson, C49_bernoulli: the likelihood array of every built-in model is the stated density/probability at every grid point. C49_poisson: the probabilities of all counts are non-negative and sum to one (infinite sum); C49_bernoulli likewise for {0,1}; C49_laplace_normalised, C49_normal_normalised: the densities have distribution functions with limits 0 and 1. C49_bernoulli_outside: out-of-range values act like p = 0 and are overwritten in the grid. C49_likelihoods, C49_fit: every model with its default prior meets the hypotheses of the inference theorems. Findings: C49_poisson_negative_refuted, C49_infinite_prior, C49_bernoulli_ends, C49_bernoulli_default (the default Bernoulli model can never be fitted), C49_sympy_prior."
],
"C50": [
"proved",
"C50_optimize: any minimiser (interaction tree asking for any number of points), any transition model, any selection of existing names, any prior that is not an array; exceptions included. C50_default characterises the default selection when there is a hyper-parameter that is no change-/break-point; C50_default_refuted shows that otherwise the change-points are optimised. C50_array_refuted: array priors are overwritten by the fits of the optimisation."
],
"C51": [
"proved",
""
],
"C52": [
"proved",
"Over the reals, for positive standard deviations and |rho|<1. The convolution of the study is required to be the model of scipy.signal.convolve2d (Model/Bivariate.v)."
],
"C53": [
"proved",
"C53_rejects is the 'if' part; C28_succeeds (no clash, proper analyses exist) the 'only if' part."
],
"C54": [
"proved",
"C54_sequences for any number type; distributions over the reals, for a stream split at any moment. getParameterMeanValue(t) is refuted (C54_mean_refuted)."
],
"C55": [
"proved",
"Over the reals, for hyper-parameters given as arrays (C55_mean and C55_sequence for any values). C55_unknown, C55_nothing: unknown names, and queries before the first data point. The missing factor of past distributions, the exception for single values and the change by repeated queries are refuted variants."
],
"C56": [
"proved",
"For any number type; C56_single_refuted shows it for the query after the first data point."
],
"C57": [
"proved",
"C57_defaults: configured study with exactly these grids; C57_fit: it can be analysed; C57_constant (all constant data, Gaussian) and C57_constant_refuted: collapse of the grids. Data are assumed to be numbers or NaN (no infinities) in C57_fit."
],
"C58": [
"proved",
"C58_local for any set of single analyses; C58_agreement, C58_average_refuted and C58_undetermined_refuted show that it is not the average."
],
"C59": [
"proved",
"C59_change and C59_independent describe the forward-only fit. The full fit and SerialTransitionModel with array priors are not covered. C59_array_refuted: the same prior as function gives other posteriors."
],
"C60": [
"proved",
"C60_weights, C60_step, C60_distribution, C60_fit, C60_other_grids. Exact arithmetic: irfft and fftconvolve are the sums they compute. C60_light_tails_refuted: with tail parameter 2 a fit stores a negative probability; C60_odd_refuted: concrete ValueError with an odd number of grid values."
],
"C61": [
"proved",
"C61_names, C61_relations, C61_no_time, C61_unknown_time, C61_argument, C61_history, C61_zero. In C61_no_time and C61_unknown_time all names of the query are of the kind described, and both sides have a value for some values of the names (so that no other error comes first). C61_history: the ConfigurationError provided for studies without history is not reached. C61_zero: division of two plain numbers."
],
"C62": [
"proved",
"C62_exists: the Jeffreys prior (Spec/Fisher.v: scores are derivatives, expectations infinite sums or improper integrals) exists, is positive and unique. C62_prior: the prior of the study is the Jeffreys prior divided by its sum over the grid, for any function that is the Jeffreys prior at every grid point. Values summing to exactly one are excluded (C11)."
],
"C63": [
"proved",
"HyperStudy, ChangepointStudy and OnlineStudy (with and without history). One study and one transition model per query; several studies are C41. C63_models_refuted: hyper-parameters of different transition models of one OnlineStudy are combined position by position, not as independent quantities. Hypotheses: names unique, evidence positive (as in C28/C33)."
],
"C64": [
"proved",
"Densities of SciPy and SymPy and user functions are oracles (any functions of the parameter values). C64_numpy_names_refuted: parameters of NumPy models go by position, even if the argument names say otherwise. C64_scipy_duplicate_refuted: a name given twice is accepted, the first values have no effect. C64_scipy_shape_refuted, C64_sympy_symbol_refuted, C64_numpy_values_refuted: missing shapes, symbols or values are accepted by the constructor and make every likelihood fail. C64_unspecified: models without values can never be set in a study. Hypotheses of the positive theorems: names not repeated, all shapes/symbols covered."
],
"C65": [
"proved",
"C65_prior, C65_exists, C65_errors, C65_time; the claims that fail are refuted or stated as they are: C65_length_refuted (Jeffreys prior of one observation too many), C65_scaled_refuted (change of variables missing for ScaledAR1), C65_missing (NaN everywhere), C65_evidence (evidence multiplied by the cell volume)."
],
"C66": [
"proved",
"C66_set, C66_set_rejects, C66_order, C66_last, C66_refused, C66_needed; C66_estimate_refuted: with estimated parameter values the order of the calls matters. C66_last: time stamps of the new data have to be of the right number or left out (otherwise the old ones are kept)."
],
"C67": [
"proved",
"C67_modes (several combinations; for the full mode no combination with log-evidence -inf, as the backward pass may stop an analysis, C05_full_fit_stops_refuted) and C67_keeps (also change-point studies). A full fit overwrites the local evidence, so it is compared between forward-only and evidence-only runs."
],
"C68": [
"proved",
"C68_reversal. Change-points inside serial models are not covered (the mirrored model is not a serial model); C68_spacing_refuted and C68_regime_refuted show that equal time steps and linear transition models are needed. That the prior must be flat is not shown separately."
],
"C69": [
"proved",
"C69_again (results of the second fit), C69_priors (hyper-priors left by a fit; values: C31_values). Symbolic (SymPy) hyper-priors are kept but the theorem covers default, function and array priors only. ChangepointStudy.fit is not covered."
],
"C70": [
"proved",
"C70_exchange, C70_hyper; the rules are the inductive relation equiv of Spec/Equiv.v. C70_array_refuted: not for array priors (C59). C70_order_refuted: sub-models of combined models do not commute in general. Deterministic, alpha-stable and bivariate models are not part of the rules."
],
"C71": [
"proved",
"C71_fit, C71_hyper, C71_change; the shifted model, the condition on Deterministic models and the columns that are shifted are defined in Spec/Origin.v. C71_deterministic_refuted: a quadratic function counted from the origin does depend on it. Hyper-priors given as functions or random variables of change-points are excluded (they refer to time), and so are other hyper-parameters with the value 'all'."
],
"C72": [
"proved",
"C72_values, C72_nested (combined and serial models), C72_target, C72_several. The list given as third value of BivariateRandomWalk is excluded (C25_value_refuted)."
],
"C73": [
"proved",
"C73_units (no change-points), C73_changes (evidence with change-points), C73_local. Not invariant: C73_changes_refuted, C73_local_refuted, C73_uneven_refuted. Change-points combined with other models and hyper-studies are not covered."
],
"C74": [
"proved",
"C74_factors (all fit modes; full fits without RegimeSwitch) and C74_hyper (hyper-studies); C74_regime_refuted shows that RegimeSwitch has to be excluded: its backward step applies the floor before normalisation. Oracles (spline shift, convolutions) are assumed to be linear."
],
"C75": [
"proved",
"C75_rescaled is the general statement (any observation model whose likelihood is a density of the data in the other unit, with change-points); C75_models instantiates it for the six built-in models with a unit, C75_defaults starts from loadData/setTM/setOM with default parameter values and priors. Limits: see the statement (no RegimeSwitch in full fits, no prior summing to exactly one, finite or missing data; for Gaussian, Laplace, WhiteNoise, AR1 and ScaledAR1 one-dimensional data)."
],
"C76": [
"proved",
"C76_selection (state after optimize), C76_fit (Study.fit ignores the selection), C76_hyper (an unknown selected name blocks hyper-studies), C76_stale_refuted (a stale selection of a known name gives wrong results silently). States after exceptions raised later in the optimisation are not modelled."
],
"C77": [
"proved",
"C77_likelihood_only: congruence of fit for studies with equal likelihood and prior values on the grid, for all transition models and over any number type. C77_origin: shifted data and location parameter (Gaussian, Laplace, GaussianMean), exact equality of posteriors and evidence; the statement on mean values is for posteriors that are distributions (C01). C77_defaults: default parameter values and priors."
]
}