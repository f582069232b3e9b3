# Formal model of bayesloop: design

## 1. What is modelled

The Python code of `/repo/bayesloop` is modelled function by function in Gallina; nothing was executed, the code was
read as text. Layers:

* `Base/`   numbers, extended numbers (NaN, +-inf), list "arrays", exceptions as values, list/sum lemmas
* `Model/`  the code: one definition per Python function/method, each with a comment citing file and lines
* `Spec/`   small specifications that do not mention the model (path sums of a hidden Markov model, Bayes' rule,
            Cartesian products, schedules, denotation of expressions)
* `Proof/`  lemmas
* `Props/`  the property theorems (statement + `exact lemma`), `Print Assumptions`, and `Example`s that show non-trivial
            instances of the hypotheses

### Arithmetic

The model is generic in a carrier `F` with class `Num F`. `NumR` (Coq reals) is the instance all theorems are about;
`NumQ` (normalised rationals) makes the same definitions executable with `vm_compute`, which is used for tests and
for refutations. Values are `xnum F` = finite | +inf | -inf | NaN with IEEE rules (0/0 = NaN, x/0 = inf, comparisons
with NaN are false), so that zero divisions of the code are visible and not hidden by Coq's total division. Logarithmic
quantities live in a second carrier `L` (for `NumR`: the reals with ln/exp; for `NumQ`: a multiplicative
representation).

Not modelled: rounding, underflow and overflow of floats (arithmetic is exact), signed zeros (x/0 takes the sign of x).

### Arrays

Numpy arrays are flat lists in C (row-major) order plus a shape. In-place operations are modelled as state only where
aliasing is observable: prior arrays in `fit`, hyper-parameter distribution views, Bernoulli grid views, kernel caches.
Uninitialised memory (`np.empty`) is `None`.

### Oracles (arguments of the model, no axioms)

User-supplied functions (observation-model pdf, priors, Deterministic function), SciPy's `minimize`, spline `shift`,
SymPy densities. Inside `fit` also the convolutions of the alpha-stable and bivariate walks are arguments; C46 and C60 put the
models of these convolutions (`Model/Bivariate.v`, `Model/AlphaStable.v`) in their place.

### Not modelled at all

Printing/progress bars, plotting, `fileIO` (cloudpickle), the densities inside SymPy and SciPy,
pyparsing's tokenisation (the model starts from the nested token list), the process pool itself (only its contract: each
job runs on its own copy of the study, results come back in order).

## 2. Trusted base

Coq 8.16.1 kernel; the library Coquelicot (only in the proofs of `Proof/GaussInt.v`, `Proof/FisherProof.v` and `Proof/ArProof.v`, no axioms of its own); the
standard-library axioms reported by `Print Assumptions` (section 5); the faithfulness of the
hand-written model to the cited lines; the contracts of NumPy/SciPy functions stated in the comments.

## 3. Properties: model and proof plan

* **C01 Stored posteriors are probability distributions** - Model `fit` (forward and backward loop) and all transition models over extended reals; invariant of both loops: current vector finite, >= 0, sum 1. Induction over data, nested induction over transition-model trees.
* **C02 Smoothed posteriors are the exact Bayesian posteriors** - Specification = brute-force sum over all parameter paths with transition matrices defined by recursion over the model tree. Proof: forward vectors are prefix path sums, backward vectors are suffix path sums; all operators of the class are symmetric and commute, so forward operator = adjoint.
* **C03 Log-evidence is the exact marginal likelihood, up to one grid-cell volume per reset** - Same path-sum specification; product of the norms of the forward loop = path sum; count of resets carried through the loop.
* **C04 Filtering distributions only use past data** - Forward loop is a left fold: prefix theorem for arbitrary transition models; exactness from the path-sum proof (needs no symmetry, so arbitrary priors).
* **C05 Fit modes agree on the evidence** - Relational theorem about `fit` with different flags.
* **C06 Zero-probability stop** - Characterisation of the stop branch of the forward loop, explicit `None` cells for uninitialised memory.
* **C07 Missing data carry no information** - Model `processedPdf`; theorem about inserting a NaN segment into the data list.
* **C08 Static model is batch Bayes and order-invariant** - Closed form of the forward loop for the identity operator; permutation invariance of the product.
* **C09 A change-point separates the data into independent segments** - Fit with a change-point at time c versus two Static fits, induction on the prefix; refutation for non-flat priors by a computed rational instance.
* **C10 Fitting is repeatable** - The prior cell and its aliasing with `alpha` are explicit state of the forward loop; theorem: cell unchanged for non-array priors; refutation for arrays.
* **C11 Only the shape of a prior matters** - Scaling law of `computePrior` and of the whole fit; refutation at norm = 1.
* **C12 Local evidence** - Local evidence of the backward loop vs path sums with datum i removed; product of forward local evidences; NaN case.
* **C13 Posterior mean values** - Model of mean computation; convexity bound; Fubini for marginal means.
* **C14 Gaussian random walk conserves probability and is reversible** - Model of `gaussian_filter1d` (reflect boundary, symmetric truncated kernel) on flat row-major arrays; proof through the 2n-periodic even extension.
* **C15 Regime switch keeps a floor** - Model of the step; direct.
* **C16 Not-equal model inverts the distribution** - Model of the step on extended reals (0/0 = NaN).
* **C17 Independent model forgets the past** - Fit with Independent in closed form.
* **C18 Serial model schedule** - Model of the serial step; count of breaks <= t for sorted breaks; backward(t) = forward(t-1).
* **C19 Serial and combined construction is validated** - Model of the constructors with exceptions as values; iff characterisation.
* **C20 Combined model applies its sub-models in order** - Model of combined step; list induction; refutation of adjointness by a computed instance.
* **C21 Deterministic drift telescopes** - Model of shift amounts; telescoping sum; spline interpolation itself is an oracle.
* **C22 Time stamps must be unit-spaced for change-points to smooth correctly** - Theorem for unit spacing is part of C02; refutation for spacing 2 by a computed instance.
* **C23 Data segments and time stamps stay aligned** - Model of movingWindow/loadData on lists.
* **C24 Hyper-parameter values are set where their names are** - Nested lists as trees; set/get round trip by tree induction; every Python step (first-hit search, blanking of names) is modelled.
* **C25 Ambiguous hyper-parameter names are rejected** - checkConsistency as a function to results; iff.
* **C26 Hyper-priors line up with hyper-parameters** - Tree induction on model trees produced by the constructors; Deterministic exception as refutation.
* **C27 Hyper-grid is the full Cartesian product with matching priors** - Cartesian product in C order; product sums.
* **C28 Hyper-parameter distribution is Bayes' rule** - Log-domain computation over extended logs vs Bayes' rule in linear domain.
* **C29 Average posterior is the posterior-weighted mixture** - Same; fold of logaddexp = log of sum.
* **C30 Multiprocessing does not change results** - array_split concatenates to the original; merge = serial fold.
* **C31 A hyper-study leaves the transition model as it was** - Round-trip theorem C24 applied to the restore step; 'all' exception.
* **C32 Marginal hyper-parameter distributions are consistent** - Marginal sums over flat arrays with shapes; view/copy semantics of the in-place multiplication modelled as state.
* **C33 Change-point study only considers ordered change-points** - Mask model, zero filling; sums over filtered lists. At most one admissible combination: the fit is the plain analysis (C33_few), also of unordered fixed times (C33_unordered_refuted).
* **C34 Duration distribution** - Model of loop over all combinations; IndexError as value.
* **C35 Online analysis equals batch filtering** - Induction over the stream relating OnlineStudy state to the forward loop.
* **C36 Online transition-model probabilities** - Model of step in log domain.
* **C37 Online hyper-parameter distributions** - Same; relation to the hyper-study fold.
* **C38 Online history** - State machine; induction over stream.
* **C39 Online study waits for a complete segment** - State machine; induction over stream.
* **C40 Parser computes probabilities of relations exactly** - AST evaluator vs pointwise denotation; sums over masks.
* **C41 Parser treats distinct studies as independent** - Product distributions; refutations by computed instances.
* **C42 Parser derived distribution** - Half-open binning lemma.
* **C43 Interval helpers** - Model of linspace over rationals/reals.
* **C44 Parameter grid** - Cartesian product, lattice constant decision.
* **C45 Marginal parameter distributions** - Marginal sums.
* **C46 Simulated observations** - Mixture sums.
* **C47 Kernel caching is transparent as long as the grid is unchanged** - State machine of the cache with kernel construction as oracle; invariant over histories; refutation when the grid changes.
* **C48 Multi-dimensional data** - Product over columns.
* **C49 Built-in likelihoods are probability distributions over the data** - Real analysis for Bernoulli/Poisson, non-negativity for all; aliasing of the Bernoulli grid view explicit.
* **C50 Optimisation only touches the selected hyper-parameters** - Minimiser as oracle (arbitrary finite list of evaluation points and a result).
* **C51 Loading data** - State model of loadData.
* **C52 Bivariate random walk** - Kernel and convolution over exact arithmetic; symmetry, factorisation for zero correlation, mass conservation in the interior.
* **C53 Hyper-study rejects coinciding change-points** - Spec: a row of values, one per hyper-parameter, with equal entries at two names of points (HyperSpec.clash); ClashProof relates it to the duplicate check on the grid.
* **C54 Past results of an online study** - A moment is a split of the stream; the history at its index is what was current (OnlineHistory), everything else that the getters read is fixed (OnlineFixed).
* **C55 Hyper-parameter queries of an online study** - Marginals over the combinations of values (as for hyper-studies), posterior of the combinations from C35.
* **C56 Failing queries of an online study** - The flag on_isArr of the state; step appends only to lists.
* **C57 Default parameter values of the built-in models** - Spec (DefaultSpec) defines mean, standard deviation, extremes and evenly spaced grids on the list of present values; the model uses the numpy-like folds. Positive standard deviation iff two values differ gives positive spacings, then C44/C49 apply.
* **C58 Local evidence of a hyper-study** - Sum over the combinations of the grid, from the invariant of the averaging loop.
* **C59 Change-points with a prior given as array** - The loop of the forward pass with the reset value equal to the state itself, by induction over the segments; resets are the identity on the running posterior (ChangePoint) or restore the first posterior (Independent). C59_array_refuted shows the difference to function priors by execution.
* **C60 Alpha-stable random walk** - The rolled inverse FFT is shown to be the cosine series of the characteristic function; its sum, symmetry and Fourier coefficients follow from orthogonality of the cosines. Non-negativity for alpha <= 1: the sequence of coefficients is convex and decreasing, so summation by parts twice turns the series into a non-negative combination of Fejer kernels. Zero padding makes the circular and the linear convolution agree on the grid. Fits: the invariant of C06 extended by the two kernels. C60_light_tails_refuted evaluates the kernel for alpha = 2 on three grid points by bounds on exp and cos.
* **C61 Parser rejects ambiguous and incomplete queries** - Induction over the syntax of expressions: a subexpression without names is a number, one with names is the error or a parameter that still needs a time stamp; every operation on the latter is the error. Relations are covered because the reduced query always ends in an operation.
* **C62 Default priors are Jeffreys priors** - Spec (Fisher) defines scores by derivatives and expectations by infinite sums or improper integrals (antiderivative with limits), without the model's formulas. The Gaussian integral is proved via Coquelicot's parametric integrals, second moments by integration by parts; a constant factor (sqrt 2) cancels in the normalisation.
* **C63 Queries about hyper-parameters and online studies** - The columns of the hyper-grid are the parser's hyper-parameters; the C40 theorem over abstract sources is instantiated with the distributions of C28, C33, C37 and the history of C54. The normalisation by the parser cancels the spacing of the hyper-grid. Hyper-parameters of different transition models of one online study are paired by position (C63_models_refuted).
* **C64 Custom observation models** - `Model/CustomOM.v` models the three constructors with all their checks and the calls of the densities by keyword (SciPy), by position (NumPy) and by symbol (SymPy); the densities themselves are oracles. `supplied` (Spec/CustomSpec.v) says which value a parameter has; it is functional and the pdf at a grid point is the density at these values. `dataLik` gives the likelihoods of the fit, so that C01-C04 apply. Refuted: parameters of NumPy models matched by name, repeated names, missing shapes/symbols and missing values noticed by the constructors.
* **C65 Jeffreys prior of autoregressive processes** - Spec/ArSpec.v writes the exact likelihood (stationary first observation, then Gaussian steps) and the Jeffreys prior by iterated improper integrals over all data sets of n observations. The scores are sums of products of consecutive residuals; their expectations follow by induction on n from the first four moments of the normal distribution. The result is compared with line 106 of jeffreys.py. Refuted: number of observations, parameters of ScaledAR1; the evidence follows from C11 (arrays whose sum is exactly one).
* **C66 Configuring a study** - `set` is compared with the sequence of setters by induction over the argument list (with the two flags of the loop generalised); call orders by induction over permutations from pairwise commutation. The refutation of order independence for estimated values uses the Poisson model and C57.
* **C67 Modes of hyper-studies agree** - Per combination from C05, lifted over the grid through the closed form of the fit (C28). Keeping the posteriors: induction over the loop of analyses, generic in the number type.
* **C68 Time reversal** - Reversal as a permutation of the paths; kernels are symmetric for the flat prior (generated by random walks and resets, as in C02) and the kernel of the mirrored model at a step is that of the model at the mirrored step (induction over models; break-points at whole steps). Executed counterexamples for unequal time stamps and RegimeSwitch.
* **C69 Hyper-studies are repeatable** - The state left by a fit satisfies the conditions of a fit again: same names, 'all' replaced by time stamps, densities of densities are the same densities (array weights sum to 1/c after normalisation). The fits of the single combinations depend on the model without its priors only; then the characterisation of the first fit (C28) applies to the second.
* **C70 Equivalent ways to state a transition model** - Rules as an inductive congruence (Spec/Equiv.v), sound for single steps at the times at which transitions are made (induction over the rules); then the loops of fit by induction (the steps after the last and before the first data point only have to succeed), hyper-studies by C28. Executed counterexamples: order of Independent and ChangePoint, array priors.
* **C71 The origin of time does not matter** - One equation per function: the function applied to the study with later times is the result with later times (or the same exception). Steps by induction over the model (comparisons and differences of times do not change; a Deterministic model after a break-point counts from there), loops by induction, the hyper-grid column by column, hyper-studies with the invariant that the names and kinds of hyper-parameters stay. Executed counterexample: a Deterministic model with a quadratic function.
* **C72 Constructors of transition models** - Through C25_value: the list of all names with their values in the order of the code; the values of the constructors are compared with a separate table of conversions. Serial models by induction over the arguments. Several values: no step of such a model succeeds, hence the forward pass ends with an exception or stops at the first data point.
* **C73 Units of the parameters** - A simulation between the two runs: a step of the converted model gives the same array, or at a change-point the array times the product of the factors; hence the arrays differ by a factor that the normalisation removes and that enters the evidence. Backward steps are normalised anyway. What remains is where the code multiplies by the volume of a grid cell: at change-points and in the local evidence.
* **C74 Constant factors of the likelihood** - Every step without RegimeSwitch maps proportional arrays to proportional arrays (random walks are linear, NotEqual normalises before its floor, the others normalise or ignore their argument), so that one run follows the other step by step and the factors end up in the norms. The backward step of RegimeSwitch compares the unnormalised product with its floor; the refutation runs that case. For hyper-studies (C74_hyper) every run of the grid is followed by its counterpart, so that the common factor cancels in the normalised weights.
* **C75 Units of the data** - Composition of C73 (a middle study with the old data, but parameters in the new units), C74 (its likelihood against that of the rescaled data, segment by segment) and C11 (default priors are proportional). What is left per observation model is an identity of densities; for the default grids the mean, standard deviation, oint and cint commute with the conversion.
* **C76 What a failed optimisation leaves behind** - Model/OptimizeStart.v models the part of optimize before the minimiser together with the state at an exception (the rest of the model describes no state after exceptions); optimize is shown to begin with exactly this part. HyperStudy.fit assigns values through the selection, so the first analysis of every process raises; the refutation executes the case in which it does not.
* **C77 Data and parameter values enter only through likelihood and prior** - a congruence for the whole of fit (Proof/LikOnlyProof.v), generic in the number type: environments that differ only in grid values and in priors with equal values give equal steps, by induction over transition models, then over the two passes. The origin of the data is a corollary: x - mean is unchanged, for infinite data and missing values as well.

## 4. Simplifications, file by file

Everything here is part of the trusted base: the theorems speak about the model, and the model differs from the code in
these points.

* Everywhere: exact arithmetic; exceptions are values and the state of objects after an exception is only described where
  a theorem says so; warnings and printed text are only counted (`st_warn`) or dropped.
* `Model/Study.v` (core.py, class Study): a prior given as a function returns a new array (not the grid array itself);
  `posteriorSequence == []` is only true for the empty list; likelihoods are values of `om_pdf` (no exceptions).
* `Model/Tm.v` (transitionModels.py): `scipy.ndimage.shift` and (inside `fit`) the convolutions of the alpha-stable and the
  bivariate walk are arguments of the model; `Model/AlphaStable.v`, `Model/Bivariate.v` and `Model/Cache.v` describe the
  kernels of these walks and their caching separately. `numpy.fft.irfft` and `scipy.signal.fftconvolve` are modelled by the
  sums they compute (exactly); the kernel of the alpha-stable walk only exists for real numbers. SciPy's exceptions for covariance matrices that are not positive
  definite are not modelled. Truncation of Gaussian kernels follows `gaussian_filter1d` with `truncate=4`.
* `Model/Getters.v`: `np.squeeze` is the identity because every parameter has at least two values.
* `Model/Hyper.v` (class HyperStudy): `averagePosteriorSequence` is an accumulator; fewer hyper-priors than hyper-parameters
  are a ValueError; densities of SymPy random variables are elementwise functions; worker processes are modelled by their
  contract (each works on a copy, results come back in order); `customHyperGrid` is only used as ChangepointStudy does.
* `Model/Changepoint.v`: rounding to ten digits is a parameter `rnd`.
* `Model/Online.v`: adding the same transition-model object twice is modelled as two objects; changing the observation model
  after the first step is not modelled.
* `Model/OnlineGetters.v`: an empty history makes 'avg' queries raise ValueError (NumPy gives NaN for a single parameter); the
  time average over models with different numbers of combinations is taken elementwise; returned arrays are values.
* `Model/Optimize.v`: SciPy's minimiser is an arbitrary interaction tree (points may depend on all earlier values).
* `Model/OptimizeStart.v`: the state at an exception for the part of `optimize` before the minimiser; a minimiser that raises later is not modelled.
* `Model/ObsModels.v`: only over the reals; the `om` records give `[]` where `pdf` raises; estimated ranges assume finite or
  missing data, not all missing; Bernoulli's overwriting of grid values is modelled in `bernoulliPdf`, not inside `fit`.
* `Model/CustomOM.v`: dictionaries instead of successive arguments (deprecated; for SymPy they make the parameter names a view
  without `index`), functions with variable arguments, and SymPy parameters called x or given twice are not modelled.
* `Model/Parser.v`: text and pyparsing are not modelled (queries are given by their syntax, which is turned into the nested
  list pyparsing returns); elementwise functions and powers are oracles; a constant power that is complex or overflows,
  reading uninitialised cells, and a query of one token are a ValueError.
* `Model/JeffreysAR1.v`: `str(study.observationModel)` is an argument (one of the two names or another); two-dimensional data raise
  ValueError (NumPy would broadcast or raise, depending on the shapes).
* Not modelled: plotting, printing, `fileIO.py`, `preprocessing.py` except `movingWindow`, `getJeffreysPrior` of `jeffreys.py` (symbolic computation), Monte-Carlo evaluation of integrals.

## 5. Axioms

Result of `Print Assumptions` (in `Props/Assumptions.v`) for every property theorem. All axioms belong to the
standard library (real numbers and classical logic); the development has none of its own.

* none ("Closed under the global context"):
  C04_future_is_irrelevant C05_evidence_only C05_full_fit C05_full_fit_stops_refuted C09_nonflat_refuted C10_refit
  C10_array_overwritten C10_static_array C10_array_refuted C11_sum_one_refuted C16_flat_start_refuted C20_order
  C20_nested C20_trivial C20_reversed_refuted C22_depends_on_future_refuted C23_segments C25_index C25_online_refuted
  C26_aligned C27_symbolic_refuted C28_impossible_refuted C28_single_refuted C32_query_refuted C33_single_refuted
  C33_unordered_refuted C33_refused C34_missing_refuted C35_change_refuted C35_impossible_refuted C36_prior_refuted
  C38_history C38_independent C39_waits C39_window C39_list_refuted C40_argument_refuted C41_brackets_refuted
  C41_ingredient_refuted C41_other_time_refuted C45_single_step_refuted C49_sympy_prior C50_optimize C50_default
  C50_errors C50_default_refuted C50_array_refuted C51_stale_timestamps_refuted C51_no_timestamps_refuted C54_sequences
  C54_mean_refuted C54_getPD_refuted C55_unknown C55_nothing C55_past_refuted C55_scalar_refuted C55_repeat_refuted
  C56_blocks C56_repairs C56_single_refuted C58_average_refuted C58_undetermined_refuted C59_array_refuted
  C63_models_refuted C66_set C66_set_rejects C66_order C66_last C66_refused C66_needed C67_keeps C68_spacing_refuted
  C68_regime_refuted C70_order_refuted C70_array_refuted C71_deterministic_refuted C72_target C72_several
  C73_changes_refuted C73_local_refuted C73_uneven_refuted C74_regime_refuted C76_selection C76_fit C76_stale_refuted
  C77_likelihood_only
* `ClassicalDedekindReals.sig_forall_dec`:
  C26_list_prior_refuted
* `ClassicalDedekindReals.sig_forall_dec`, `FunctionalExtensionality.functional_extensionality_dep`:
  C18_interval C41_total
* `ClassicalDedekindReals.sig_forall_dec`, `ClassicalDedekindReals.sig_not_dec`, `FunctionalExtensionality.functional_extensionality_dep`:
  C49_poisson_counts C49_poisson_negative_refuted C52_symmetric C52_independent
* `ClassicalDedekindReals.sig_forall_dec`, `ClassicalDedekindReals.sig_not_dec`, `Classical_Prop.classic`, `FunctionalExtensionality.functional_extensionality_dep`:
  C01_posteriors_are_distributions C02_smoothing_is_exact C03_evidence C04_filtering_is_exact C04_last_step
  C05_evidence_agrees C06_stop C06_stop_any_model C07_likelihood C07_dimensions C07_insert C08_batch C08_order
  C09_change_point C09_serial C09_prior_twice C11_scale C11_sum_one C12_full_fit C12_forward_fit C13_mean_values
  C14_transition C14_conserved C15_regime_switch C16_not_equal C16_uniform_nan C17_filtering C17_full_fit C18_schedule
  C19_serial C19_order_refuted C19_break_rejected C21_drift C22_change_point_skipped C22_full_fit C23_timestamps
  C23_default_timestamps C24_set_all C24_set_selected C24_unknown C24_blank_name_refuted C25_consistency
  C25_hyper_refuted C25_value C25_value_refuted C25_online C25_online_set C26_constructors C26_deterministic_refuted
  C27_grid C27_prior C28_analyses C28_bayes C28_proper C28_succeeds C29_average C29_mixture C30_jobs C31_values
  C31_reused C32_fitted C32_marginal C32_joint C32_consistent C32_number C32_repeatable C32_rescaled C32_rescaled_joint
  C33_combinations C33_prior C33_bayes C33_average C33_fitted C33_succeeds C33_few C34_durations C34_two_points
  C34_missing C35_batch C35_single C35_succeeds C35_fits C35_exact C36_models C36_local C36_prior C37_hyper C37_mixture
  C37_grid C37_setup C37_hyperstudy C39_stream C40_relation C40_rules C40_study C41_independent C41_operation
  C41_other_time C42_total C42_bins C42_two_values C42_nonfinite C43_cint C43_oint C44_grid_row_major C44_grid_complete
  C44_values_as_given C44_lattice_constant C44_transition_model_lattice C44_reachable_configured C45_distribution
  C45_average C45_all C45_errors C46_mixture C46_probability C46_errors C47_alpha C47_bivariate C47_kernel
  C47_grid_refuted C48_product C48_order C49_normal_normalised C49_gaussian C49_whiteNoise C49_gaussianMean C49_ar1
  C49_scaledAr1 C49_laplace C49_poisson C49_bernoulli C49_bernoulli_outside C49_laplace_normalised C49_likelihoods
  C49_fit C49_infinite_prior C49_bernoulli_ends C49_bernoulli_default C51_load C52_walk C52_interior C53_rejects
  C54_distribution C54_distributions C55_grid C55_current C55_past C55_mean C55_sequence C57_defaults C57_fit
  C57_constant C57_constant_refuted C57_refused C58_local C58_agreement C59_change C59_independent C60_weights C60_step
  C60_distribution C60_fit C60_other_grids C60_odd_refuted C60_light_tails_refuted C61_names C61_relations C61_no_time
  C61_unknown_time C61_argument C61_history C61_zero C62_exists C62_prior C63_hyper C63_change C63_online C63_past
  C64_scipy C64_order C64_scipy_likelihoods C64_scipy_accepted C64_numpy_likelihoods C64_numpy_accepted C64_sympy
  C64_sympy_order C64_sympy_likelihoods C64_sympy_accepted C64_unspecified C64_numpy_names_refuted
  C64_scipy_duplicate_refuted C64_scipy_shape_refuted C64_sympy_symbol_refuted C64_numpy_values_refuted C65_exists
  C65_prior C65_errors C65_time C65_missing C65_evidence C65_length_refuted C65_scaled_refuted C66_estimate_refuted
  C67_modes C68_reversal C69_again C69_priors C70_exchange C70_hyper C71_fit C71_hyper C71_change C72_values C72_nested
  C73_units C73_changes C73_local C74_factors C74_hyper C75_rescaled C75_models C75_defaults C76_hyper C77_origin
  C77_defaults
