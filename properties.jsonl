{"id": "C01", "title": "Stored posteriors are probability distributions", "statement": "After Study.fit (full or forwardOnly) has run without reporting a zero-evidence stop, every stored posterior distribution is non-negative and sums to exactly one, at every time step.", "quantifier": "all data sequences of any length, all parameter grids, all non-negative likelihoods and priors, all (arbitrarily nested) transition models whose sub-models are Static, GaussianRandomWalk, ChangePoint, Independent, RegimeSwitch, NotEqual, Combined or Serial, both fit modes", "why_tests_cant": "Normalisation has to hold for every data length, grid and nesting of transition models; a test only samples a few.", "anchors": ["bayesloop/core.py: Study.fit", "bayesloop/transitionModels.py: computeForwardPrior/computeBackwardPrior of every model"]}
{"id": "C02", "title": "Smoothed posteriors are the exact Bayesian posteriors", "statement": "For a flat prior and unit-spaced time stamps, the posterior sequence of a full fit equals the exact posterior marginals of the hidden-Markov model that the user specified: the probability of parameter value x at time i is the sum of prior x likelihood x transition probability over all parameter paths through x at i, divided by the sum over all paths.", "quantifier": "all data lengths, grids, likelihoods, and all transition models nested from Static, GaussianRandomWalk, ChangePoint, Independent, CombinedTransitionModel and SerialTransitionModel (break- and change-points)", "why_tests_cant": "The reference value is a sum over exponentially many paths and the claim ranges over unboundedly many nestings and data lengths.", "anchors": ["bayesloop/core.py: Study.fit", "bayesloop/transitionModels.py: Static, GaussianRandomWalk, ChangePoint, Independent, CombinedTransitionModel, SerialTransitionModel"]}
{"id": "C03", "title": "Log-evidence is the exact marginal likelihood, up to one grid-cell volume per reset", "statement": "exp(logEvidence) equals the exact marginal likelihood (sum over all parameter paths of prior x transition x likelihood) multiplied by (product of lattice constants)^k, where k is the number of change-point resets that happen before the last data point; without resets it is the exact marginal likelihood. The log-evidence is -inf exactly if the marginal likelihood is zero.", "quantifier": "all data lengths, grids, likelihoods, priors (flat, function, array), and linear transition models", "why_tests_cant": "Evidence is the quantity used for model comparison; a constant factor per change-point is invisible to tests that pin numbers computed by the same code.", "anchors": ["bayesloop/core.py: Study.fit", "bayesloop/transitionModels.py: ChangePoint.computeForwardPrior, SerialTransitionModel._forwardChangePointCheck"]}
{"id": "C04", "title": "Filtering distributions only use past data", "statement": "With forwardOnly=True the distribution stored for step i is the exact posterior given data up to i, and is unchanged by replacing, removing or appending any later data; the final step of a full fit equals the final step of a forward-only fit.", "quantifier": "all data sequences and continuations, all transition models, all priors", "why_tests_cant": "Causality quantifies over all possible futures.", "anchors": ["bayesloop/core.py: Study.fit (forwardOnly)"]}
{"id": "C05", "title": "Fit modes agree on the evidence", "statement": "Full, forwardOnly and evidenceOnly fits of the same study report the same logEvidence whenever the backward pass succeeds; an evidenceOnly fit leaves the stored posterior sequence untouched and clears the mean values.", "quantifier": "all studies, data, models, flags", "why_tests_cant": "A relational property over all inputs of two runs.", "anchors": ["bayesloop/core.py: Study.fit"]}
{"id": "C06", "title": "Zero-probability stop", "statement": "If at some time step no parameter value is compatible with the data seen so far, fit reports logEvidence = -inf, stops at the first such step, keeps the filtering distributions of the steps before it, leaves the rest of the freshly allocated posterior array and local evidences unset, and does not update the mean values.", "quantifier": "all studies and data", "why_tests_cant": "Quantifies over the failing step and all prefixes.", "anchors": ["bayesloop/core.py: Study.fit"]}
{"id": "C07", "title": "Missing data carry no information", "statement": "A data segment that contains a NaN has likelihood one for every parameter value: under a Static transition model, inserting missing data anywhere leaves the evidence and all posteriors at the other steps unchanged; with multiply=True, a NaN in one dimension only removes that dimension.", "quantifier": "all data sequences, all insertion positions, all observation models and grids", "why_tests_cant": "All positions and numbers of missing values.", "anchors": ["bayesloop/observationModels.py: ObservationModel.processedPdf", "bayesloop/core.py: Study.fit"]}
{"id": "C08", "title": "Static model is batch Bayes and order-invariant", "statement": "With the Static transition model the posterior at every time step of a full fit is the normalised product of prior and all likelihoods, so it is the same at all steps, and it and the evidence do not change under any re-ordering of the data (segment length 1).", "quantifier": "all data sequences, all permutations, all priors", "why_tests_cant": "All permutations of all data sets.", "anchors": ["bayesloop/transitionModels.py: Static", "bayesloop/core.py: Study.fit"]}
{"id": "C09", "title": "A change-point separates the data into independent segments", "statement": "With a flat prior and a change-point at time c, the posteriors up to c equal those of a separate Static study of the data up to c, the posteriors after c equal those of a study of the later data, and the evidence is the product of both evidences times one grid-cell volume. With a non-flat prior the posteriors after c still agree but those before c are multiplied by the prior a second time.", "quantifier": "all data sequences, all change-point positions, all grids, all likelihoods and priors", "why_tests_cant": "All positions, lengths and priors; the existing tests only pin numbers.", "anchors": ["bayesloop/transitionModels.py: ChangePoint.computeForwardPrior/computeBackwardPrior", "bayesloop/core.py: Study.fit"]}
{"id": "C10", "title": "Fitting is repeatable", "statement": "Calling fit twice on an unchanged study gives identical results and does not modify the prior supplied by the user. This holds for missing, function and SymPy priors; for a prior supplied as Numpy array the fit overwrites the array, so that the second fit starts from data-dependent values.", "quantifier": "all studies, priors, transition models, data", "why_tests_cant": "Aliasing bugs depend on the type of prior and on which transition model returns its argument unchanged; existing tests fit once.", "anchors": ["bayesloop/core.py: Study.fit, Study._computePrior", "bayesloop/transitionModels.py: Static, ChangePoint"]}
{"id": "C11", "title": "Only the shape of a prior matters", "statement": "Multiplying a custom prior (array or function) by any positive constant changes neither posteriors nor evidence, as long as its values do not sum to exactly one; if they do, the prior is not converted into a density and the evidence is multiplied by the grid-cell volume while posteriors are unchanged.", "quantifier": "all priors, all positive scale factors, all grids", "why_tests_cant": "A measure-zero exception can only be found by reasoning.", "anchors": ["bayesloop/core.py: Study._computePrior"]}
{"id": "C12", "title": "Local evidence", "statement": "After a full fit with positive likelihoods, the local evidence of step i times the cell volume equals the leave-one-out predictive probability of datum i given all other data; after a forward-only fit the local evidence of step i equals the cell volume times the one-step predictive norm, and the product of all local evidences is the evidence times cell volume^(n-1). If some parameter value has zero likelihood and zero posterior the full-fit local evidence is NaN.", "quantifier": "all data lengths, grids, likelihoods", "why_tests_cant": "The relation involves all paths and all data.", "anchors": ["bayesloop/core.py: Study.fit (localEvidence)"]}
{"id": "C13", "title": "Posterior mean values", "statement": "posteriorMeanValues[k][i] is the expectation of parameter k under the posterior at step i, equals the mean of the marginal distribution returned by getParameterDistribution, and always lies between the smallest and the largest value of that parameter's grid.", "quantifier": "all studies, grids of any dimension, time steps", "why_tests_cant": "Bounds must hold for every grid and posterior.", "anchors": ["bayesloop/core.py: Study.fit, Study.getParameterMeanValues, Study.getParameterDistribution"]}
{"id": "C14", "title": "Gaussian random walk conserves probability and is reversible", "statement": "The Gaussian-random-walk step preserves total probability and non-negativity, leaves a flat distribution flat, leaves every distribution unchanged for sigma = 0, only mixes grid points along the target axis, and is symmetric (the probability of moving from x to y equals that of moving from y to x), which is what makes the backward pass exact.", "quantifier": "all grids of any dimension and size (including grids smaller than the kernel radius), all axes, all sigma >= 0", "why_tests_cant": "Boundary reflections depend on grid size versus kernel radius; unboundedly many cases.", "anchors": ["bayesloop/transitionModels.py: GaussianRandomWalk.computeForwardPrior"]}
{"id": "C15", "title": "Regime switch keeps a floor", "statement": "After a regime-switch step the distribution is normalised, the ordering of parameter values by probability is preserved, every value gets at least the floor divided by the re-normalisation constant, and nothing changes if all values already are above the floor.", "quantifier": "all distributions, grids and floors", "why_tests_cant": "All distributions.", "anchors": ["bayesloop/transitionModels.py: RegimeSwitch.computeForwardPrior"]}
{"id": "C16", "title": "Not-equal model inverts the distribution", "statement": "For every non-uniform distribution the not-equal step yields a normalised distribution in which less likely values become at least as likely as more likely ones; for an exactly uniform distribution the step divides zero by zero and every value becomes NaN.", "quantifier": "all distributions and floors", "why_tests_cant": "The failure needs an exactly uniform distribution.", "anchors": ["bayesloop/transitionModels.py: NotEqual.computeForwardPrior"]}
{"id": "C17", "title": "Independent model forgets the past", "statement": "With the Independent transition model and a normalisable prior, the filtering distribution at each step is prior x likelihood of this step only, and the evidence is the product of the single-datum evidences; in a full fit, however, all posteriors except the last carry the prior squared.", "quantifier": "all data sequences, priors and grids", "why_tests_cant": "All data lengths and priors.", "anchors": ["bayesloop/transitionModels.py: Independent", "bayesloop/core.py: Study.fit"]}
{"id": "C18", "title": "Serial model schedule", "statement": "At time t a serial transition model applies exactly the sub-model whose index is the number of break times <= t (for ordered break times b1<..<bk: sub-model 0 before b1, sub-model j from bj until b(j+1)), passes it the time of the last break as offset, and resets to the prior exactly at its change-points; the backward step at t uses the same sub-model and reset as the forward step at t-1.", "quantifier": "all numbers of breaks, break times, mixtures of break- and change-points, times and nested sub-models", "why_tests_cant": "Unbounded number of sub-models and times, boundary at equality.", "anchors": ["bayesloop/transitionModels.py: SerialTransitionModel.computeForwardPrior/computeBackwardPrior/_forwardChangePointCheck"]}
{"id": "C19", "title": "Serial and combined construction is validated", "statement": "For break times given as numbers, non-empty arrays or 'all', SerialTransitionModel accepts exactly argument sequences with one more sub-model than break/change-points and in which the first value of each break is smaller than that of the next one wherever neither is 'all'; it keeps sub-models and breaks in the given order, and everything else raises ConfigurationError. (Values are only compared with their direct neighbours, so [5, 'all', 3] is accepted.) CombinedTransitionModel, setTransitionModel and set reject bare break-points.", "quantifier": "all argument sequences", "why_tests_cant": "All interleavings.", "anchors": ["bayesloop/transitionModels.py: SerialTransitionModel.__init__, CombinedTransitionModel.__init__", "bayesloop/core.py: Study.setTransitionModel"]}
{"id": "C20", "title": "Combined model applies its sub-models in order", "statement": "The forward step of a combined model is the composition of the forward steps of its sub-models in the given order, nested combined models are equivalent to flat ones, and an empty one is the identity. The backward step also applies sub-models in the given (not the reversed) order, so that it is the reverse-time transition only if the sub-models commute.", "quantifier": "all nestings, numbers of sub-models, distributions and times", "why_tests_cant": "Unbounded nesting.", "anchors": ["bayesloop/transitionModels.py: CombinedTransitionModel"]}
{"id": "C21", "title": "Deterministic drift telescopes", "statement": "The shifts applied by the Deterministic model along consecutive integer time stamps add up to f(t_end) - f(t_start) in units of the lattice constant, and the backward shift at t is the exact negative of the forward shift at t-1.", "quantifier": "all functions, hyper-parameter values, offsets and time ranges", "why_tests_cant": "All functions and time ranges.", "anchors": ["bayesloop/transitionModels.py: Deterministic.computeForwardPrior/computeBackwardPrior"]}
{"id": "C22", "title": "Time stamps must be unit-spaced for change-points to smooth correctly", "statement": "Forward and backward pass act on the same time steps if consecutive time stamps differ by exactly one. With other spacings (e.g. 0,2,4) a change-point that resets the forward pass is skipped by the backward pass, so that posteriors before the change-point depend on data after it.", "quantifier": "all time stamp sequences", "why_tests_cant": "Tests only use unit-spaced time stamps.", "anchors": ["bayesloop/transitionModels.py: ChangePoint.computeBackwardPrior, SerialTransitionModel.computeBackwardPrior", "bayesloop/core.py: Study.fit"]}
{"id": "C23", "title": "Data segments and time stamps stay aligned", "statement": "Splitting n data points into segments of length k yields n-k+1 segments (none if k>n), the i-th consisting of data points i..i+k-1 in order, and the time stamp of segment i is that of its last data point; so a default-loaded study gets strictly increasing integer time stamps, one per segment.", "quantifier": "all data arrays, all segment lengths", "why_tests_cant": "All lengths incl. k = n and k > n.", "anchors": ["bayesloop/preprocessing.py: movingWindow", "bayesloop/core.py: Study.fit, Study.loadData"]}
{"id": "C24", "title": "Hyper-parameter values are set where their names are", "statement": "Setting the flat list of all hyper-parameter values and reading it back returns the same list; every value ends up in the sub-model and position that carries its name, all names, priors and the model structure are unchanged. Setting selected names changes exactly those, and reading selected names returns their values in the order given.", "quantifier": "all nested transition models with unique hyper-parameter names, all value lists, all selections", "why_tests_cant": "Unbounded nesting depth.", "anchors": ["bayesloop/core.py: Study._setAllHyperParameters, _unpackAllHyperParameters, _setSelectedHyperParameters, _unpackSelectedHyperParameters, _unpackHyperParameters", "bayesloop/helper.py: flatten, recursiveIndex, assignNestedItem"]}
{"id": "C25", "title": "Ambiguous hyper-parameter names are rejected", "statement": "fit/optimize raise ConfigurationError exactly if data, observation model or transition model is missing or two hyper-parameters anywhere in the nested transition model share a name; otherwise the look-up of a hyper-parameter by name returns the unique position, and unknown names raise PostProcessingError. An OnlineStudy raises ConfigurationError at its first data point if it has no observation model or transition model, or if two hyper-parameters of the added transition models (same or different ones) share a name; models added after the first data point are not compared.", "quantifier": "all nested transition models and names", "why_tests_cant": "All nestings.", "anchors": ["bayesloop/core.py: Study._checkConsistency, Study._getHyperParameterIndex", "bayesloop/core.py: OnlineStudy.step, addTransitionModel"]}
{"id": "C26", "title": "Hyper-priors line up with hyper-parameters", "statement": "The flattened list of hyper-priors has the same length and order as the flattened list of hyper-parameter names for all nested models, except for a Deterministic model that was given a list of priors: these priors are dropped.", "quantifier": "all nested transition models", "why_tests_cant": "All nestings; exception needs a specific constructor path.", "anchors": ["bayesloop/core.py: HyperStudy._unpackHyperPriors, HyperStudy._createHyperGrid", "bayesloop/transitionModels.py: Deterministic.__init__"]}
{"id": "C27", "title": "Hyper-grid is the full Cartesian product with matching priors", "statement": "The hyper-grid contains every combination of hyper-parameter values exactly once in row-major order; the prior of a combination is the product of the normalised priors of its values divided by the grid constants, so that prior times cell volume sums to one over the grid (function, array and flat priors).", "quantifier": "all numbers of hyper-parameters, value lists, priors", "why_tests_cant": "Unbounded number of hyper-parameters.", "anchors": ["bayesloop/core.py: HyperStudy._createHyperGrid"]}
{"id": "C28", "title": "Hyper-parameter distribution is Bayes' rule", "statement": "After HyperStudy.fit the hyper-parameter distribution is proportional to evidence x prior, integrates to one over the grid, assigns zero to combinations with zero evidence, and the study evidence is the prior-weighted sum of the individual evidences.", "quantifier": "all hyper-grids, priors, data", "why_tests_cant": "All grids and evidences, incl. zero evidences.", "anchors": ["bayesloop/core.py: HyperStudy.fit"]}
{"id": "C29", "title": "Average posterior is the posterior-weighted mixture", "statement": "The posterior sequence of a HyperStudy is, at every step and parameter value, the average of the individual posteriors weighted with the hyper-parameter probabilities (combinations with zero evidence excluded), up to the documented replacement of values below 1e-300; it is normalised.", "quantifier": "all hyper-grids, data, models", "why_tests_cant": "All hyper-grids.", "anchors": ["bayesloop/core.py: HyperStudy.fit"]}
{"id": "C30", "title": "Multiprocessing does not change results", "statement": "For any number of jobs (also larger than the number of combinations) HyperStudy.fit yields the same evidences, hyper-parameter distribution and average posterior as with one job.", "quantifier": "all job counts, all hyper-grids", "why_tests_cant": "All splits of all grids.", "anchors": ["bayesloop/core.py: HyperStudy.fit, HyperStudy._parallelFit"]}
{"id": "C31", "title": "A hyper-study leaves the transition model as it was", "statement": "After HyperStudy.fit every hyper-parameter has the value(s) the user assigned before the fit, except that 'all' is replaced by the array of time stamps of that fit, which is then re-used even if other data are loaded.", "quantifier": "all nested transition models, all hyper-grids", "why_tests_cant": "State after the run for every structure.", "anchors": ["bayesloop/core.py: HyperStudy.fit, HyperStudy._createHyperGrid"]}
{"id": "C32", "title": "Marginal hyper-parameter distributions are consistent", "statement": "Marginal and joint hyper-parameter distributions sum to one after a fit, summing the joint over one name gives the marginal of the other, and swapping the names transposes the joint. Asking again gives the same answer if there is something to marginalise over; for a study with exactly one (joint: two) hyper-parameters each call rescales the stored distribution in place.", "quantifier": "all hyper-grids and names, any sequence of queries", "why_tests_cant": "Repeated queries and all grid shapes.", "anchors": ["bayesloop/core.py: HyperStudy.getHyperParameterDistribution, getJointHyperParameterDistribution"]}
{"id": "C33", "title": "Change-point study only considers ordered change-points", "statement": "In a ChangepointStudy a combination of change-/break-points is analysed exactly if its times are strictly increasing in model order; all others get probability exactly zero; re-normalisation of the prior preserves its total mass; probabilities still sum to one. A fit is refused with NotImplementedError if the transition model contains several SerialTransitionModels or both change-points and break-points, and with ConfigurationError if it contains neither.", "quantifier": "all numbers of change-points, all value lists", "why_tests_cant": "Unbounded number of change-points.", "anchors": ["bayesloop/core.py: ChangepointStudy.fit"]}
{"id": "C34", "title": "Duration distribution", "statement": "With two change-points the duration distribution sums to one and assigns to each duration d exactly the probability that the second minus the first change-point equals d; with three or more change-points the query can raise IndexError because durations that only occur in invalid combinations are missing.", "quantifier": "all value lists and distributions", "why_tests_cant": "All grids; the crash needs three points.", "anchors": ["bayesloop/core.py: ChangepointStudy.getDurationDistribution"]}
{"id": "C35", "title": "Online analysis equals batch filtering", "statement": "Feeding data one by one into an OnlineStudy with a single transition model without hyper-parameter lists gives, after each step, the same parameter distribution and log-evidence as a forward-only fit of all data so far, for transition models that do not depend on time; time-dependent models (e.g. ChangePoint) always see time -1 and never trigger.", "quantifier": "all data streams, all prefixes, all time-homogeneous transition models", "why_tests_cant": "All streams.", "anchors": ["bayesloop/core.py: OnlineStudy.step, Study.fit"]}
{"id": "C36", "title": "Online transition-model probabilities", "statement": "After each OnlineStudy step the transition-model probabilities are normalised and proportional to the evidences of the models, without taking the transition-model prior into account; the local ones are proportional to (evidence ratio of this step) x prior; logEvidence is the prior-weighted sum. setTransitionModelPrior stores one probability per model, normalised to sum to one, and raises ConfigurationError if their number is wrong.", "quantifier": "all numbers of models, data, priors", "why_tests_cant": "All streams and sets of models.", "anchors": ["bayesloop/core.py: OnlineStudy.step, setTransitionModelPrior"]}
{"id": "C37", "title": "Online hyper-parameter distributions", "statement": "After each step the hyper-parameter distribution of each model integrates to one and is proportional to evidence x hyper-prior; the marginal parameter distribution is the mixture over hyper-parameters and models and sums to one; the evidence of a model equals that of a forward-only HyperStudy divided by the hyper-grid cell volume.", "quantifier": "all streams, hyper-grids", "why_tests_cant": "All streams and grids.", "anchors": ["bayesloop/core.py: OnlineStudy.step", "bayesloop/core.py: HyperStudy.fit"]}
{"id": "C38", "title": "Online history", "statement": "With storeHistory the k-th stored distribution, mean, hyper-parameter distribution and model probabilities are those that were current after the k-th completed step; exactly one entry is stored per completed step, and the results do not depend on storeHistory.", "quantifier": "all streams", "why_tests_cant": "All prefixes.", "anchors": ["bayesloop/core.py: OnlineStudy.step"]}
{"id": "C39", "title": "Online study waits for a complete segment", "statement": "For segment length k the first k-1 data points only fill the buffer (no distribution, evidence or history changes), every later data point triggers exactly one update with the last k data points, and time stamps are the integer positions of the last points.", "quantifier": "all streams, all segment lengths", "why_tests_cant": "All k.", "anchors": ["bayesloop/core.py: OnlineStudy.step"]}
{"id": "C40", "title": "Parser computes probabilities of relations exactly", "statement": "For a query comparing two arithmetic expressions over parameters of one time step of one study, the returned value is the total posterior probability of the grid points at which the relation holds; P(a>b)+P(a<=b)=1 and P(a>=b)=P(a>b)+P(a==b).", "quantifier": "all expressions, grids, posteriors", "why_tests_cant": "All expressions.", "anchors": ["bayesloop/parser.py: Parser._evaluate, _operation, __call__"]}
{"id": "C41", "title": "Parser treats distinct studies as independent", "statement": "An operation on parameters of different studies (or the same parameter at different times) yields all value pairs with product probabilities, summing to one. Operands that are dependent but not recognised as such (e.g. a derived value combined with one of its ingredients) are also multiplied as if independent, and different parameters of one study at different times are combined as if both had the distribution of the first operand.", "quantifier": "all expressions, studies", "why_tests_cant": "All expressions.", "anchors": ["bayesloop/parser.py: Parser._operation"]}
{"id": "C42", "title": "Parser derived distribution", "statement": "The distribution returned for a query without relation sums to one minus the probability of the largest value (the right-most bin is half-open); values that are not finite, as after a division by zero, do not contribute.", "quantifier": "all derived distributions", "why_tests_cant": "All binned distributions.", "anchors": ["bayesloop/parser.py: Parser.__call__"]}
{"id": "C43", "title": "Interval helpers", "statement": "cint(a,b,n) returns n evenly spaced values with both ends included; oint(a,b,n) returns n evenly spaced values strictly between a and b; the spacing is (b-a)/(n-1) resp. (b-a)/(n+1), and a study on such a grid uses that spacing as lattice constant.", "quantifier": "all a<b, n", "why_tests_cant": "All n.", "anchors": ["bayesloop/helper.py: oint, cint", "bayesloop/core.py: Study.setObservationModel"]}
{"id": "C44", "title": "Parameter grid", "statement": "Setting an observation model creates every combination of parameter values exactly once in row-major order; the lattice constant of a parameter is the spacing of its values if they are equally spaced and one otherwise; the transition model sees the new lattice constants regardless of whether it is set before or after the observation model.", "quantifier": "all value lists, orders of set calls", "why_tests_cant": "All dimensions.", "anchors": ["bayesloop/core.py: Study.setObservationModel, setTransitionModel, set"]}
{"id": "C45", "title": "Marginal parameter distributions", "statement": "getParameterDistribution(s) return non-negative values that sum to one (density=False) or integrate to one over the lattice (density=True), the marginals of every parameter are sums of the joint posterior over all other parameters, time 'avg' is the time average, and unknown names or times raise PostProcessingError without changing the study.", "quantifier": "all grids, posteriors, names, times", "why_tests_cant": "All dimensions.", "anchors": ["bayesloop/core.py: Study.getParameterDistribution, getParameterDistributions"]}
{"id": "C46", "title": "Simulated observations", "statement": "simulate returns the posterior-weighted mixture of the observation probabilities; without density it sums to one over the given points.", "quantifier": "all x, t, posteriors", "why_tests_cant": "All inputs.", "anchors": ["bayesloop/core.py: Study.simulate"]}
{"id": "C47", "title": "Kernel caching is transparent as long as the grid is unchanged", "statement": "The cached convolution kernel of AlphaStableRandomWalk and BivariateRandomWalk is always the one that belongs to the current hyper-parameters, for any sequence of steps and hyper-parameter changes on one grid; after the grid or lattice constant changes, the kernel of the old grid is still used until the hyper-parameters change.", "quantifier": "all histories of setting hyper-parameters, changing grids and stepping", "why_tests_cant": "Histories of any length.", "anchors": ["bayesloop/transitionModels.py: AlphaStableRandomWalk.computeForwardPrior, BivariateRandomWalk.computeForwardPrior"]}
{"id": "C48", "title": "Multi-dimensional data", "statement": "For observation models that declare multiply=True the likelihood of a multi-dimensional datum is the product of the likelihoods of its components, for any number of dimensions and segment length; the order of dimensions is irrelevant.", "quantifier": "all dimensions, data", "why_tests_cant": "All dimensions.", "anchors": ["bayesloop/observationModels.py: ObservationModel.processedPdf"]}
{"id": "C49", "title": "Built-in likelihoods are probability distributions over the data", "statement": "For every admissible parameter value the built-in discrete likelihoods sum to one over the possible observations (Bernoulli over {0,1}, Poisson over all counts), the normal and Laplace densities integrate to one, and all built-in likelihoods are non-negative; values outside the admissible range of Bernoulli get likelihood one for the observation 0, and evaluating the likelihood overwrites them in the parameter grid. An observation of the Poisson model that is not a count (negative, fractional or not finite) is refused with ValueError.", "quantifier": "all parameter values", "why_tests_cant": "Infinite sums; aliasing.", "anchors": ["bayesloop/observationModels.py: Bernoulli.pdf, Poisson.pdf, Gaussian.pdf, Laplace.pdf, GaussianMean.pdf, WhiteNoise.pdf, AR1.pdf, ScaledAR1.pdf"]}
{"id": "C50", "title": "Optimisation only touches the selected hyper-parameters", "statement": "After optimize the selected hyper-parameters have the optimum returned by the minimiser, all others keep their values, change-/break-points are never selected by default, stored results are those of a fit with these values, and no selection remains active.", "quantifier": "all minimisers, models, selections", "why_tests_cant": "The minimiser may evaluate any number of points.", "anchors": ["bayesloop/core.py: Study.optimize, _optimizationStep"]}
{"id": "C51", "title": "Loading data", "statement": "loadData without time stamps assigns 0..n-1; with matching time stamps these are used; with a wrong number of time stamps the previous time stamps (or none) stay in place although the data are replaced.", "quantifier": "all data, time stamps, histories of loads", "why_tests_cant": "Histories of loads.", "anchors": ["bayesloop/core.py: Study.loadData"]}
{"id": "C52", "title": "Bivariate random walk", "statement": "One step of BivariateRandomWalk moves the distribution by Gaussian step probabilities (standard deviations in grid points, correlation rho, cut off at three standard deviations rounded up), drops what leaves the grid and normalises the rest; the result is a probability distribution. If nothing can leave the grid, no normalisation takes place. The step probabilities are symmetric, and without correlation they factorise into independent steps of both parameters.", "quantifier": "all two-dimensional grids, lattice constants, hyper-parameters and distributions", "why_tests_cant": "All grids and distributions; real-valued kernels.", "anchors": ["bayesloop/transitionModels.py: BivariateRandomWalk.computeForwardPrior, createKernel"]}
{"id": "C53", "title": "Hyper-study rejects coinciding change-points", "statement": "A hyper-study raises ConfigurationError if and only if some combination of the hyper-parameter values assigns the same time to two different change-points or break-points of the transition model (at any nesting depth); if no combination does, the study is analysed.", "quantifier": "all transition models with change- and break-points at any depth, all lists of values", "why_tests_cant": "All nestings and all value lists, including overlaps in any coordinate pair.", "anchors": ["bayesloop/core.py: HyperStudy.fit (lines 1275-1290)", "bayesloop/core.py: Study._unpackChangepointNames, _unpackBreakpointNames"]}
{"id": "C54", "title": "Past results of an online study", "statement": "In an online study that stores its history: the sequences of transition model distributions, transition model probabilities and parameter mean values, the parameter distribution at a past time stamp and the sequence of parameter distributions are exactly what the corresponding queries for the current result returned right after the data point of that time stamp; asking does not change the study. (Refuted for getParameterMeanValue with a time stamp, and for the short form getPD with density=False.)", "quantifier": "all observation and transition models, streams of data points, moments and later data points, parameter names", "why_tests_cant": "Streams of any length; two queries at different moments have to agree.", "anchors": ["bayesloop/core.py: OnlineStudy.getParameterDistribution, getParameterDistributions, getCurrentParameterDistribution, getTransitionModelDistributions, getTransitionModelProbabilities, getParameterMeanValues"]}
{"id": "C55", "title": "Hyper-parameter queries of an online study", "statement": "The current distribution of a hyper-parameter of an online study is the posterior distribution of the combinations of hyper-parameter values, summed over the other hyper-parameters; it sums to one. The mean values and the sequence of distributions are the posterior expectations and posterior probabilities after each data point. The distribution at one past time is the then current one divided by the product of the spacings of the values. A name that no transition model has raises PostProcessingError; before the first data point all these queries raise an exception. (Refuted: the past distribution sums to one; queries for hyper-parameters with a single value work; repeated queries agree.)", "quantifier": "all models with arrays of hyper-parameter values, streams, moments", "why_tests_cant": "Streams of any length, all grids of hyper-parameter values, real-valued probabilities.", "anchors": ["bayesloop/core.py: OnlineStudy.getCurrentHyperParameterDistribution, getHyperParameterDistribution, getHyperParameterDistributions, getHyperParameterMeanValue, getHyperParameterMeanValues"]}
{"id": "C56", "title": "Failing queries of an online study", "statement": "If a query for the parameter distribution(s) of an online study raises an exception, the next data point that completes a segment raises AttributeError, although it would have been accepted without the query; a later successful query restores the study completely.", "quantifier": "all studies, queries and data points", "why_tests_cant": "Any reachable state of a stream, any failing query.", "anchors": ["bayesloop/core.py: OnlineStudy.getParameterDistribution, getParameterDistributions, step"]}
{"id": "C57", "title": "Default parameter values of the built-in models", "statement": "If no parameter values are given, the built-in observation models choose evenly spaced values: Bernoulli 1000 values from 0 to 1; Poisson 1000 inside (0, 1.25 max); Gaussian and Laplace 200 from mean - 2 std to mean + 2 std and 200 inside (0, 2 std) or (0, sqrt(2) std); white noise 1000 inside (0, 2 std); Gaussian mean 1000 inside the range of the values extended by its width on both sides; AR-1 models 200 inside (-1, 1) and 200 inside (0, 2 std). Missing values are ignored. For data with at least two different values (Poisson: a positive value) all chosen values lie in the domain of the parameter, the study is completely configured and, except for the Bernoulli model, can be fitted with the default prior. (Refuted for constant data: the values of each parameter coincide and the standard deviation is zero.)", "quantifier": "all data sets, parameter names, transition models", "why_tests_cant": "All real-valued data sets of any length with missing values.", "anchors": ["bayesloop/observationModels.py: estimateParameterValues of Bernoulli, Poisson, Gaussian, Laplace, GaussianMean, WhiteNoise, AR1, ScaledAR1", "bayesloop/core.py: Study.setObservationModel", "bayesloop/helper.py: cint, oint"]}
{"id": "C58", "title": "Local evidence of a hyper-study", "statement": "The local evidence of a hyper-study at a time step is the sum of the local evidences of the single analyses weighted with the hyper-parameter prior values; if it is undefined (NaN) for one of them it is undefined for the study. If all single analyses agree on it, the result is the common value divided by the product of the spacings of the hyper-parameter values. (Refuted: the local evidence is an average of those of the single analyses; it is defined whenever the evidence is positive.)", "quantifier": "all hyper-studies whose single analyses succeed, all time steps", "why_tests_cant": "Any number of combinations and hyper-parameters, real-valued evidences.", "anchors": ["bayesloop/core.py: HyperStudy.fit (line 1410)"]}
{"id": "C59", "title": "Change-points with a prior given as array", "statement": "If the prior of the parameters is passed to the observation model as an array (not as function, constant or random variable), the forward pass overwrites this array. Therefore a ChangePoint has no effect on the filtered posteriors (they are those of the static model); its only effect is that the evidence is multiplied by the volume of a grid cell, unless it lies at or after the last time step. With Independent, the first posterior takes the role of the prior for all later observations. The same prior given as function yields different posteriors.", "quantifier": "all data, grids, likelihoods, array priors, change-point positions", "why_tests_cant": "Aliasing between the prior and the running posterior only shows in particular combinations; the claim holds for all data and priors.", "anchors": ["bayesloop/core.py: Study._computePrior, Study.fit", "bayesloop/transitionModels.py: ChangePoint.computeForwardPrior, Independent.computeForwardPrior"]}
{"id": "C60", "title": "Alpha-stable random walk", "statement": "With one parameter, or two parameters with an even number of grid values each, AlphaStableRandomWalk moves probability along the target parameter by n grid points with the weight that is the inverse discrete Fourier transform (period: three grid lengths) of the characteristic function exp(-|c k|^alpha) of the symmetric stable distribution, c in units of the grid spacing; no other parameter is changed; the result is normalised. For every alpha > 0 the weights of a period sum to one, are symmetric, and scale zero leaves the distribution unchanged. For 0 < alpha <= 1 the weights are not negative; hence fits with any nesting of transition models including such walks and bivariate random walks never raise, and all posteriors are probability distributions unless the evidence is reported as zero. (Refuted: for alpha = 2 probabilities can become negative; with two parameters of which one has an odd number of values the fit raises ValueError; with more parameters it raises ConfigurationError.)", "quantifier": "all grids, scales, tail parameters, nested transition models, data", "why_tests_cant": "All grid sizes and real-valued scales and tail parameters; positivity of a Fourier series is not decidable by sampling.", "anchors": ["bayesloop/transitionModels.py: AlphaStableRandomWalk.computeForwardPrior, createKernel, convolve (lines 158-260)"]}
{"id": "C61", "title": "Parser rejects ambiguous and incomplete queries", "statement": "A Parser without studies, or with studies two of whose parameters or hyper-parameters share a name, raises ConfigurationError; so does a query with more than one relational operator. A relation between expressions (or the distribution of an operation) over parameters of studies with history, or hyper-parameters of OnlineStudies with history, without time stamps raises ConfigurationError. A time stamp that does not occur in the study (name@t), or in the first study (argument t), raises ValueError. With the argument t, an OnlineStudy that keeps no history raises IndexError (and not the ConfigurationError with the message that the history is not stored). A query that divides a plain number by the plain number zero raises ZeroDivisionError.", "quantifier": "all studies, expressions (arbitrarily nested), time stamps", "why_tests_cant": "All expressions and sets of studies.", "anchors": ["bayesloop/parser.py: Parser.__init__, _operation, __call__"]}
{"id": "C62", "title": "Default priors are Jeffreys priors", "statement": "If no prior is given, the prior distribution of a study with the Bernoulli, Poisson, Gaussian, Laplace or WhiteNoise model is proportional to the square root of the (determinant of the) Fisher information of the model's likelihood at every grid point; this Jeffreys prior exists, is positive and unique for all parameter values inside the domain. (As with all function priors, values that sum to exactly one on the grid are excluded.)", "quantifier": "all parameter values inside the domain, all parameter grids", "why_tests_cant": "The Fisher information is an improper integral or infinite sum over all data, of derivatives with respect to the parameters.", "anchors": ["bayesloop/observationModels.py: Bernoulli.jeffreys, Poisson.jeffreys, Gaussian.jeffreys, Laplace.jeffreys, WhiteNoise.jeffreys", "bayesloop/core.py: Study._computePrior"]}
{"id": "C63", "title": "Queries about hyper-parameters and online studies", "statement": "A parser query comparing expressions of hyper-parameters is answered with the total posterior probability of the combinations of hyper-parameter values at which the relation holds: for a fitted HyperStudy evidence times prior, normalised; for a ChangepointStudy the same over the ordered combinations, unordered ones having probability zero; for an OnlineStudy the posterior of the combinations of the transition model the hyper-parameters belong to - the current one if no history is kept, otherwise the one known after the data point whose time stamp is given with '@' or as argument. Queries about parameters of an OnlineStudy use the parameter distribution of the same moment.", "quantifier": "all fitted studies, all data streams, all hyper-parameter grids, all expressions and relations over the hyper-parameters of one transition model", "why_tests_cant": "Only a few queries can be executed; the probability is defined over all combinations and all data streams.", "anchors": ["bayesloop/parser.py: Parser.__call__, Parser._convert, Parser._evaluate", "bayesloop/core.py: HyperStudy.fit, ChangepointStudy.fit, OnlineStudy.step"]}
{"id": "C64", "title": "Custom observation models", "statement": "Observation models built from a scipy.stats distribution (SciPy) or a sympy.stats random variable (SymPy) give, at every grid point, the density of the data point with every parameter of the distribution set to the value supplied for it under its name - free parameters from the grid, fixed parameters as given, otherwise scipy's defaults loc=0 and scale=1 - no matter in which order the parameters are listed. Models built from a Python function (NumPy) call it with the data point (the whole vector for two-dimensional data) and the parameter values in the order given. In a fit a missing value counts as likelihood one; for SciPy and SymPy models components of vectors are independent. The constructors accept exactly the documented arguments (a function whose first argument is called data with one further argument per parameter; names of free parameters or symbols; known keywords) and raise ConfigurationError or TypeError otherwise; SciPy and SymPy models without parameter values are refused when set in a study.", "quantifier": "all functions, distributions, random variables, parameter names, orders, fixed parameters, parameter values and data", "why_tests_cant": "Tests use a few distributions with the parameters in one order; the matching of names and values concerns every distribution, every order and every grid point.", "anchors": ["bayesloop/observationModels.py: NumPy.__init__, NumPy.pdf, SciPy.__init__, SciPy.pdf, SymPy.__init__, SymPy.pdf", "bayesloop/helper.py: freeSymbols"]}
{"id": "C65", "title": "Jeffreys prior of autoregressive processes", "statement": "computeJeffreysPriorAR1 returns an array of positive numbers over the parameter grid that add up to one and are proportional to the Jeffreys prior of the stationary autoregressive process (square root of the determinant of the Fisher information of the exact likelihood in the correlation coefficient and the standard deviation of the noise) times the stationary density of the observation number t. It raises ConfigurationError exactly if the model is neither AR1 nor ScaledAR1, a grid point has |r| >= 1, or no data are loaded. Not true: that it is the Jeffreys prior for the number of observations loaded (it is that of one more), that for ScaledAR1 it is the Jeffreys prior in the model's own parameters, that the prior is usable if the observation is missing, and that a fit with it yields the normalised evidence.", "quantifier": "all grids, all data, all time steps t", "why_tests_cant": "The Fisher information is an integral over all data sets; it has to be compared with the formula at every parameter value and for every number of observations.", "anchors": ["bayesloop/jeffreys.py: computeJeffreysPriorAR1", "bayesloop/observationModels.py: AR1, ScaledAR1", "bayesloop/core.py: Study._computePrior"]}
{"id": "C66", "title": "Configuring a study", "statement": "set(...) with at most one observation model and at most one transition model has the effect of the corresponding setters in the given order; two models of a kind, or another object, raise ConfigurationError. If the parameter values are given, loading data and setting the two models may be done in any order with the same result. Data or a model given later replace the earlier ones completely. fit raises ConfigurationError if data, observation model or transition model are missing or if two hyper-parameters share a name, and it succeeds only if all parts are present. Not true: that the order is irrelevant when parameter values are left out (they are estimated from the data present at that moment and not revised).", "quantifier": "all studies, all argument lists of set, all orders of the calls, all data and models", "why_tests_cant": "The number of call orders and argument lists is unbounded, and equality of the resulting studies has to hold for all data and models.", "anchors": ["bayesloop/core.py: Study.set", "bayesloop/core.py: Study.loadData", "bayesloop/core.py: Study.setObservationModel", "bayesloop/core.py: Study.setTransitionModel", "bayesloop/core.py: Study._checkConsistency"]}
{"id": "C67", "title": "Modes of hyper-studies agree", "statement": "The hyper-parameter distribution, the log-evidence of every combination and the log-evidence of the study do not depend on whether HyperStudy.fit is run in full, with forwardOnly or with evidenceOnly, nor on the number of jobs (for full fits: provided the backward pass of no combination is stopped by an impossible datum); the local evidence agrees for forwardOnly and evidenceOnly. With evidenceOnly, HyperStudy.fit and ChangepointStudy.fit leave the posterior sequence as it was.", "quantifier": "all hyper-studies, all models, data, grids of hyper-parameter values and numbers of jobs", "why_tests_cant": "The claim compares runs of the same analysis for arbitrary models, data and hyper-grids.", "anchors": ["bayesloop/core.py: HyperStudy.fit", "bayesloop/core.py: ChangepointStudy.fit", "bayesloop/core.py: Study.fit"]}
{"id": "C68", "title": "Time reversal", "statement": "With the flat default prior, analysing the data points in reverse order with the mirrored transition model (change-points and break-points reflected in the middle of the data, sub-models of a serial model in reverse order) is the analysis of the original data read backwards: Study.fit reports the same log-evidence and, unless that is -inf, the same posterior distributions, mean values and local evidence in reverse order.", "quantifier": "all studies with the default prior, observation models of segment length one, combinations of Static, GaussianRandomWalk, ChangePoint, Independent, combined and serial models (break-points at whole steps), all data with unit-spaced time stamps (arbitrary time stamps if the model does not refer to time)", "why_tests_cant": "The symmetry must hold for arbitrary data, numbers of time steps and nested transition models; tests compare single data sets.", "anchors": ["bayesloop/core.py: Study.fit", "bayesloop/transitionModels.py: GaussianRandomWalk", "bayesloop/transitionModels.py: ChangePoint", "bayesloop/transitionModels.py: SerialTransitionModel"]}
{"id": "C69", "title": "Hyper-studies are repeatable", "statement": "Calling HyperStudy.fit again (same mode, any number of processes) succeeds and gives exactly the results of the first call: the values of the hyper-parameters, their prior probabilities, the log-evidence of every combination, the hyper-parameter distribution, the log-evidence and local evidence of the average model, the average posterior and its mean values. This holds although the first call overwrites all hyper-parameter values and replaces hyper-priors given as arrays by their normalised densities; hyper-priors of other kinds are left as they were.", "quantifier": "all hyper-studies over arbitrary nested transition models with distinct hyper-parameters, default, function or array hyper-priors with positive total weight, observation-model priors that are not arrays, all data for which the analyses of the combinations are proper", "why_tests_cant": "Idempotence of in-place changes has to hold for every combination of priors, values and models; tests fit each study once.", "anchors": ["bayesloop/core.py: HyperStudy.fit", "bayesloop/core.py: HyperStudy._createHyperGrid", "bayesloop/core.py: Study._setAllHyperParameters"]}
{"id": "C70", "title": "Equivalent ways to state a transition model", "statement": "Transition models that say the same thing give the same results: Study.fit reports the same log-evidence, posterior distributions, local evidence and mean values if sub-models are exchanged by the following rules, anywhere in a nested model: names and priors of hyper-parameters do not matter; a random walk of width zero (or less) is Static; a change-point at a time at which no transition is made is Static; combined models of no, one or nested combined models can be flattened; models before Independent in a combined model do not matter; change-points in a combined model may be repeated and swapped; a serial model whose sub-models are all the same, or that stays in one phase throughout the data, is the combination of that sub-model and its change-points. Hyper-studies over models that are exchangeable for every combination of values agree as well.", "quantifier": "all studies with a prior that is not an array, all nested transition models made of Static, GaussianRandomWalk, ChangePoint, Independent, RegimeSwitch, NotEqual, combined and serial models, all data and time stamps, all modes of fit", "why_tests_cant": "The rules apply at any depth of nested models and for arbitrary data and time stamps.", "anchors": ["bayesloop/transitionModels.py: CombinedTransitionModel", "bayesloop/transitionModels.py: SerialTransitionModel", "bayesloop/transitionModels.py: ChangePoint", "bayesloop/transitionModels.py: GaussianRandomWalk", "bayesloop/core.py: Study.fit", "bayesloop/core.py: HyperStudy.fit"]}
{"id": "C71", "title": "The origin of time does not matter", "statement": "If all time stamps passed to loadData and all change-points and break-points of the transition model are later by the same amount, Study.fit, HyperStudy.fit and ChangepointStudy.fit report the same log-evidence, posterior distributions, local evidence and mean values, or raise the same exception. Hyper-studies and change-point studies also report the same hyper-parameter distribution, list of log-evidence values and prior values, and the same duration distribution between two change- or break-points; the combinations of hyper-parameter values differ by that amount in the change- and break-points only. (Deterministic models whose function counts time from the origin have to have increments that do not depend on the origin, such as linear functions.)", "quantifier": "all amounts, all data and time stamps, all observation models and priors (array priors included), all nested transition models whose Deterministic sub-models are linear or count time from a break-point, all modes of fit, any number of jobs; in hyper-studies change- and break-points without hyper-prior or with an array of probabilities", "why_tests_cant": "Relates two runs for every shift of every time axis; the model may be nested to any depth.", "anchors": ["bayesloop/core.py: Study.fit", "bayesloop/core.py: HyperStudy.fit", "bayesloop/core.py: HyperStudy._createHyperGrid", "bayesloop/core.py: ChangepointStudy.fit", "bayesloop/core.py: ChangepointStudy.getDurationDistribution", "bayesloop/transitionModels.py: ChangePoint", "bayesloop/transitionModels.py: SerialTransitionModel", "bayesloop/transitionModels.py: Deterministic"]}
{"id": "C72", "title": "Constructors of transition models", "statement": "After a transition model has been constructed, getHyperParameterValue returns for every hyper-parameter the value that was given for its name, lists converted to arrays; in combined and serial models this holds for the hyper-parameters of all sub-models and for the break-points and change-points between them. Models that act on one parameter cannot be constructed without a target. A plain Study does not obtain a model evidence for a random walk or change-point (also as part of a combined model) whose hyper-parameter was given several values.", "quantifier": "all constructors, names, values (numbers, lists, arrays, 'all'), nestings; all studies", "why_tests_cant": "Nested models of any depth and any number of arguments.", "anchors": ["bayesloop/transitionModels.py: GaussianRandomWalk.__init__", "bayesloop/transitionModels.py: AlphaStableRandomWalk.__init__", "bayesloop/transitionModels.py: ChangePoint.__init__", "bayesloop/transitionModels.py: Deterministic.__init__", "bayesloop/transitionModels.py: CombinedTransitionModel.__init__", "bayesloop/transitionModels.py: SerialTransitionModel.__init__", "bayesloop/core.py: Study.getHyperParameterValue", "bayesloop/core.py: Study.fit"]}
{"id": "C73", "title": "Units of the parameters", "statement": "If the values of the parameters are stated in other units (each parameter multiplied by its own positive factor) and observation model, prior, widths of random walks, deterministic functions and probability floors (10^x is a density) are converted accordingly, fit gives the same posterior distributions, time stamps and log-evidence, and the posterior mean values in the new units. This fails in three places: each change-point within the data multiplies the evidence by the product of the factors; local evidence values are multiplied by the product of the factors (all but the first one, with forwardOnly or evidenceOnly) or divided by it (otherwise); and parameter values that are not equally spaced are treated as one unit apart whatever the unit, so that even the posterior distributions differ.", "quantifier": "all data, observation models with given parameter values, priors not normalised to exactly one on the grid, conversion factors, transition models (with change-points only between the sub-models of serial models), fit modes", "why_tests_cant": "A relation between pairs of runs for all factors, models and data.", "anchors": ["bayesloop/core.py: Study.setObservationModel", "bayesloop/core.py: Study._computePrior", "bayesloop/core.py: Study.fit", "bayesloop/transitionModels.py: GaussianRandomWalk.computeForwardPrior", "bayesloop/transitionModels.py: RegimeSwitch.computeForwardPrior", "bayesloop/transitionModels.py: ChangePoint.computeForwardPrior", "bayesloop/transitionModels.py: SerialTransitionModel"]}
{"id": "C74", "title": "Constant factors of the likelihood only change the evidence", "statement": "If the likelihood of each data segment is multiplied by a positive number that does not depend on the parameters (but may depend on the segment), Study.fit gives the same posteriorSequence, posteriorMeanValues and formattedTimestamps; logEvidence changes by the sum of the logarithms of the factors and the i-th localEvidence value is multiplied by the i-th factor; a fit that fails or finds zero evidence does so in both cases. This holds for forward-only and evidence-only fits with any transition model and for full fits with any transition model that does not contain RegimeSwitch. With RegimeSwitch the smoothed distributions of a full fit depend on such factors (hence on the units of the data). Likewise for HyperStudy.fit: hyper-parameter distribution, averaged posterior and means are unchanged, all log-evidence values are shifted by the same sum, for any numbers of processes.", "quantifier": "all studies, observation models, priors, data, segment factors > 0, transition models (nested) and fit modes", "why_tests_cant": "tests fix one likelihood; the invariance quantifies over all factors per segment, all grids and nested transition models, and it is an algebraic property of the whole recursion (normalisation at every step)", "anchors": ["bayesloop/core.py: Study.fit", "bayesloop/transitionModels.py: RegimeSwitch.computeBackwardPrior", "bayesloop/transitionModels.py: NotEqual.computeBackwardPrior", "bayesloop/observationModels.py: ObservationModel.processedPdf", "bayesloop/core.py: HyperStudy.fit"]}
{"id": "C75", "title": "The unit of the data does not matter", "statement": "Multiply all data by a number u > 0 and state the parameter values (mean, standard deviation, scale, but not correlation coefficients), a user-defined prior and the transition model in the corresponding unit. For Gaussian, Laplace, WhiteNoise, AR1, ScaledAR1 and GaussianMean, Study.fit then gives the same posteriorSequence, the posteriorMeanValues of the dimensional parameters multiplied by u, and a logEvidence that is lower by log(u) per data segment without missing values; it fails with the same exception, if it fails. The default (Jeffreys) priors need no conversion, and if parameter values are left to be estimated from the data, the estimated grid of the rescaled data is the rescaled grid. Full fits must not contain RegimeSwitch (see C74), grids must be equally spaced, the transition model must have no change-points (for these see the general theorem), and a prior must not sum to exactly one on the grid (see C11).", "quantifier": "all u > 0, all data series with any pattern of missing values, all grids, priors, nested transition models and fit modes; all segment lengths of the models named", "why_tests_cant": "tests use data in one unit; equivariance under all rescalings involves default grids, default priors, transition models and every step of the two passes at once", "anchors": ["bayesloop/observationModels.py: Gaussian, Laplace, GaussianMean, WhiteNoise, AR1, ScaledAR1 (pdf, jeffreys, estimateParameterValues)", "bayesloop/core.py: Study.loadData, Study.setObservationModel, Study._computePrior, Study.fit"]}
{"id": "C76", "title": "What a failed optimisation leaves behind", "statement": "If optimize(names) is refused with ConfigurationError because a name is unknown or the study is incomplete, or if the minimiser raises before its first evaluation, the names stay selected and nothing else changes; a study without anything to optimise and a successful optimisation end with an empty selection. Study.fit does not depend on the selection. On a HyperStudy (which inherits optimize) every later fit over more than one combination is refused with ConfigurationError while an unknown name is selected, in every mode and for any number of processes; and after an optimisation of a known name that failed inside the minimiser, HyperStudy.fit can succeed with wrong results, because it assigns the values of the grid to the selected name only.", "quantifier": "all studies, nested transition models, lists of names, fit modes, numbers of processes", "why_tests_cant": "requires combining a failing call with a later call of another method; the claim quantifies over all names, nested models and modes", "anchors": ["bayesloop/core.py: Study.optimize", "bayesloop/core.py: Study._setSelectedHyperParameters", "bayesloop/core.py: HyperStudy.fit"]}
{"id": "C77", "title": "Data and parameter values enter only through likelihood and prior", "statement": "Two studies whose likelihood and prior values agree at all grid points (and which have the same grid shape and spacing, transition model and time stamps) get the same posterior distributions, (local) evidence and formatted time stamps from Study.fit, or raise the same exception, whatever their data, parameter values and observation models are; only the posterior mean values are computed from the respective parameter values. In particular the origin of the data does not matter: if a constant is added to all data and to all values of the location parameter of the Gaussian, Laplace or GaussianMean model (with the prior stated for the shifted parameter), posterior distributions and evidence stay the same and the mean values of that parameter grow by the constant. With default parameter values and priors it suffices to add the constant to the data.", "quantifier": "all data, parameter grids, priors, transition models and flags of fit; all constants", "why_tests_cant": "A test compares two runs for a few data sets; that no other path from data or parameter values to the results exists has to be shown for all transition models and inputs.", "anchors": ["bayesloop/core.py:Study.fit", "bayesloop/core.py:Study._computePrior", "bayesloop/core.py:Study.setObservationModel", "bayesloop/observationModels.py:Gaussian", "bayesloop/observationModels.py:Laplace", "bayesloop/observationModels.py:GaussianMean"]}
