(** Axioms used by every property theorem (generated by tools/manifest.py). *)
From Verif Require Import Props.AlphaStable Props.ArrayPrior Props.Batch Props.Cache Props.Change Props.Changepoint Props.Constructors Props.Custom Props.DataUnits Props.Defaults Props.Equivalent Props.Evidence Props.Ex Props.ExR Props.Factors Props.Few Props.HyperFactors Props.HyperMarginal Props.HyperParameters Props.HyperStudy Props.Inference Props.Jeffreys Props.JeffreysAR1 Props.Leftover Props.Mirror Props.Observation Props.Online Props.OnlineGetters Props.OnlineSetup Props.OnlineStream Props.Optimize Props.Origin Props.Parameters Props.Parser Props.ParserErrors Props.ParserHyper Props.ParserStudy Props.Prior Props.Refusals Props.Repeat Props.Setting Props.Setup Props.Shifted Props.Simulate Props.Transition Props.Units.
Print Assumptions C01_posteriors_are_distributions.
Print Assumptions C02_smoothing_is_exact.
Print Assumptions C03_evidence.
Print Assumptions C04_filtering_is_exact.
Print Assumptions C04_future_is_irrelevant.
Print Assumptions C04_last_step.
Print Assumptions C05_evidence_only.
Print Assumptions C05_full_fit.
Print Assumptions C05_evidence_agrees.
Print Assumptions C05_full_fit_stops_refuted.
Print Assumptions C06_stop.
Print Assumptions C06_stop_any_model.
Print Assumptions C07_likelihood.
Print Assumptions C07_dimensions.
Print Assumptions C07_insert.
Print Assumptions C08_batch.
Print Assumptions C08_order.
Print Assumptions C09_change_point.
Print Assumptions C09_serial.
Print Assumptions C09_prior_twice.
Print Assumptions C09_nonflat_refuted.
Print Assumptions C10_refit.
Print Assumptions C10_array_overwritten.
Print Assumptions C10_static_array.
Print Assumptions C10_array_refuted.
Print Assumptions C11_scale.
Print Assumptions C11_sum_one.
Print Assumptions C11_sum_one_refuted.
Print Assumptions C12_full_fit.
Print Assumptions C12_forward_fit.
Print Assumptions C13_mean_values.
Print Assumptions C14_transition.
Print Assumptions C14_conserved.
Print Assumptions C15_regime_switch.
Print Assumptions C16_not_equal.
Print Assumptions C16_uniform_nan.
Print Assumptions C16_flat_start_refuted.
Print Assumptions C17_filtering.
Print Assumptions C17_full_fit.
Print Assumptions C18_schedule.
Print Assumptions C18_interval.
Print Assumptions C19_serial.
Print Assumptions C19_order_refuted.
Print Assumptions C19_break_rejected.
Print Assumptions C20_order.
Print Assumptions C20_nested.
Print Assumptions C20_trivial.
Print Assumptions C20_reversed_refuted.
Print Assumptions C21_drift.
Print Assumptions C22_change_point_skipped.
Print Assumptions C22_full_fit.
Print Assumptions C22_depends_on_future_refuted.
Print Assumptions C23_segments.
Print Assumptions C23_timestamps.
Print Assumptions C23_default_timestamps.
Print Assumptions C24_set_all.
Print Assumptions C24_set_selected.
Print Assumptions C24_unknown.
Print Assumptions C24_blank_name_refuted.
Print Assumptions C25_consistency.
Print Assumptions C25_hyper_refuted.
Print Assumptions C25_index.
Print Assumptions C25_value.
Print Assumptions C25_value_refuted.
Print Assumptions C25_online.
Print Assumptions C25_online_set.
Print Assumptions C25_online_refuted.
Print Assumptions C26_aligned.
Print Assumptions C26_constructors.
Print Assumptions C26_deterministic_refuted.
Print Assumptions C26_list_prior_refuted.
Print Assumptions C27_grid.
Print Assumptions C27_prior.
Print Assumptions C27_symbolic_refuted.
Print Assumptions C28_analyses.
Print Assumptions C28_bayes.
Print Assumptions C28_proper.
Print Assumptions C28_succeeds.
Print Assumptions C28_impossible_refuted.
Print Assumptions C28_single_refuted.
Print Assumptions C29_average.
Print Assumptions C29_mixture.
Print Assumptions C30_jobs.
Print Assumptions C31_values.
Print Assumptions C31_reused.
Print Assumptions C32_fitted.
Print Assumptions C32_marginal.
Print Assumptions C32_joint.
Print Assumptions C32_consistent.
Print Assumptions C32_number.
Print Assumptions C32_repeatable.
Print Assumptions C32_rescaled.
Print Assumptions C32_rescaled_joint.
Print Assumptions C32_query_refuted.
Print Assumptions C33_combinations.
Print Assumptions C33_prior.
Print Assumptions C33_bayes.
Print Assumptions C33_average.
Print Assumptions C33_fitted.
Print Assumptions C33_succeeds.
Print Assumptions C33_single_refuted.
Print Assumptions C33_few.
Print Assumptions C33_unordered_refuted.
Print Assumptions C33_refused.
Print Assumptions C34_durations.
Print Assumptions C34_two_points.
Print Assumptions C34_missing.
Print Assumptions C34_missing_refuted.
Print Assumptions C35_batch.
Print Assumptions C35_single.
Print Assumptions C35_succeeds.
Print Assumptions C35_fits.
Print Assumptions C35_exact.
Print Assumptions C35_change_refuted.
Print Assumptions C35_impossible_refuted.
Print Assumptions C36_models.
Print Assumptions C36_local.
Print Assumptions C36_prior.
Print Assumptions C36_prior_refuted.
Print Assumptions C37_hyper.
Print Assumptions C37_mixture.
Print Assumptions C37_grid.
Print Assumptions C37_setup.
Print Assumptions C37_hyperstudy.
Print Assumptions C38_history.
Print Assumptions C38_independent.
Print Assumptions C39_waits.
Print Assumptions C39_window.
Print Assumptions C39_stream.
Print Assumptions C39_list_refuted.
Print Assumptions C40_relation.
Print Assumptions C40_rules.
Print Assumptions C40_study.
Print Assumptions C40_argument_refuted.
Print Assumptions C41_independent.
Print Assumptions C41_total.
Print Assumptions C41_operation.
Print Assumptions C41_other_time.
Print Assumptions C41_brackets_refuted.
Print Assumptions C41_ingredient_refuted.
Print Assumptions C41_other_time_refuted.
Print Assumptions C42_total.
Print Assumptions C42_bins.
Print Assumptions C42_two_values.
Print Assumptions C42_nonfinite.
Print Assumptions C43_cint.
Print Assumptions C43_oint.
Print Assumptions C44_grid_row_major.
Print Assumptions C44_grid_complete.
Print Assumptions C44_values_as_given.
Print Assumptions C44_lattice_constant.
Print Assumptions C44_transition_model_lattice.
Print Assumptions C44_reachable_configured.
Print Assumptions C45_distribution.
Print Assumptions C45_average.
Print Assumptions C45_all.
Print Assumptions C45_errors.
Print Assumptions C45_single_step_refuted.
Print Assumptions C46_mixture.
Print Assumptions C46_probability.
Print Assumptions C46_errors.
Print Assumptions C47_alpha.
Print Assumptions C47_bivariate.
Print Assumptions C47_kernel.
Print Assumptions C47_grid_refuted.
Print Assumptions C48_product.
Print Assumptions C48_order.
Print Assumptions C49_normal_normalised.
Print Assumptions C49_gaussian.
Print Assumptions C49_whiteNoise.
Print Assumptions C49_gaussianMean.
Print Assumptions C49_ar1.
Print Assumptions C49_scaledAr1.
Print Assumptions C49_laplace.
Print Assumptions C49_poisson.
Print Assumptions C49_poisson_counts.
Print Assumptions C49_bernoulli.
Print Assumptions C49_bernoulli_outside.
Print Assumptions C49_poisson_negative_refuted.
Print Assumptions C49_laplace_normalised.
Print Assumptions C49_likelihoods.
Print Assumptions C49_fit.
Print Assumptions C49_infinite_prior.
Print Assumptions C49_bernoulli_ends.
Print Assumptions C49_bernoulli_default.
Print Assumptions C49_sympy_prior.
Print Assumptions C50_optimize.
Print Assumptions C50_default.
Print Assumptions C50_errors.
Print Assumptions C50_default_refuted.
Print Assumptions C50_array_refuted.
Print Assumptions C51_load.
Print Assumptions C51_stale_timestamps_refuted.
Print Assumptions C51_no_timestamps_refuted.
Print Assumptions C52_walk.
Print Assumptions C52_interior.
Print Assumptions C52_symmetric.
Print Assumptions C52_independent.
Print Assumptions C53_rejects.
Print Assumptions C54_sequences.
Print Assumptions C54_distribution.
Print Assumptions C54_distributions.
Print Assumptions C54_mean_refuted.
Print Assumptions C54_getPD_refuted.
Print Assumptions C55_grid.
Print Assumptions C55_unknown.
Print Assumptions C55_nothing.
Print Assumptions C55_current.
Print Assumptions C55_past.
Print Assumptions C55_mean.
Print Assumptions C55_sequence.
Print Assumptions C55_past_refuted.
Print Assumptions C55_scalar_refuted.
Print Assumptions C55_repeat_refuted.
Print Assumptions C56_blocks.
Print Assumptions C56_repairs.
Print Assumptions C56_single_refuted.
Print Assumptions C57_defaults.
Print Assumptions C57_fit.
Print Assumptions C57_constant.
Print Assumptions C57_constant_refuted.
Print Assumptions C57_refused.
Print Assumptions C58_local.
Print Assumptions C58_agreement.
Print Assumptions C58_average_refuted.
Print Assumptions C58_undetermined_refuted.
Print Assumptions C59_change.
Print Assumptions C59_independent.
Print Assumptions C59_array_refuted.
Print Assumptions C60_weights.
Print Assumptions C60_step.
Print Assumptions C60_distribution.
Print Assumptions C60_fit.
Print Assumptions C60_other_grids.
Print Assumptions C60_odd_refuted.
Print Assumptions C60_light_tails_refuted.
Print Assumptions C61_names.
Print Assumptions C61_relations.
Print Assumptions C61_no_time.
Print Assumptions C61_unknown_time.
Print Assumptions C61_argument.
Print Assumptions C61_history.
Print Assumptions C61_zero.
Print Assumptions C62_exists.
Print Assumptions C62_prior.
Print Assumptions C63_hyper.
Print Assumptions C63_change.
Print Assumptions C63_online.
Print Assumptions C63_past.
Print Assumptions C63_models_refuted.
Print Assumptions C64_scipy.
Print Assumptions C64_order.
Print Assumptions C64_scipy_likelihoods.
Print Assumptions C64_scipy_accepted.
Print Assumptions C64_numpy_likelihoods.
Print Assumptions C64_numpy_accepted.
Print Assumptions C64_sympy.
Print Assumptions C64_sympy_order.
Print Assumptions C64_sympy_likelihoods.
Print Assumptions C64_sympy_accepted.
Print Assumptions C64_unspecified.
Print Assumptions C64_numpy_names_refuted.
Print Assumptions C64_scipy_duplicate_refuted.
Print Assumptions C64_scipy_shape_refuted.
Print Assumptions C64_sympy_symbol_refuted.
Print Assumptions C64_numpy_values_refuted.
Print Assumptions C65_exists.
Print Assumptions C65_prior.
Print Assumptions C65_errors.
Print Assumptions C65_time.
Print Assumptions C65_missing.
Print Assumptions C65_evidence.
Print Assumptions C65_length_refuted.
Print Assumptions C65_scaled_refuted.
Print Assumptions C66_set.
Print Assumptions C66_set_rejects.
Print Assumptions C66_order.
Print Assumptions C66_last.
Print Assumptions C66_refused.
Print Assumptions C66_needed.
Print Assumptions C66_estimate_refuted.
Print Assumptions C67_keeps.
Print Assumptions C67_modes.
Print Assumptions C68_reversal.
Print Assumptions C68_spacing_refuted.
Print Assumptions C68_regime_refuted.
Print Assumptions C69_again.
Print Assumptions C69_priors.
Print Assumptions C70_exchange.
Print Assumptions C70_hyper.
Print Assumptions C70_order_refuted.
Print Assumptions C70_array_refuted.
Print Assumptions C71_fit.
Print Assumptions C71_hyper.
Print Assumptions C71_change.
Print Assumptions C71_deterministic_refuted.
Print Assumptions C72_values.
Print Assumptions C72_nested.
Print Assumptions C72_target.
Print Assumptions C72_several.
Print Assumptions C73_units.
Print Assumptions C73_changes.
Print Assumptions C73_local.
Print Assumptions C73_changes_refuted.
Print Assumptions C73_local_refuted.
Print Assumptions C73_uneven_refuted.
Print Assumptions C74_factors.
Print Assumptions C74_regime_refuted.
Print Assumptions C74_hyper.
Print Assumptions C75_rescaled.
Print Assumptions C75_models.
Print Assumptions C75_defaults.
Print Assumptions C76_selection.
Print Assumptions C76_fit.
Print Assumptions C76_hyper.
Print Assumptions C76_stale_refuted.
Print Assumptions C77_likelihood_only.
Print Assumptions C77_origin.
Print Assumptions C77_defaults.
