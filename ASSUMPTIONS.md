# Print Assumptions per theorem

Generated by `tools/assumptions.py` from the built files.

## Closed under the global context

* `PropertiesSetup.C21_set_interaction`
* `PropertiesSetup.C21_set_entropy`
* `PropertiesSetup.C21_set_ensemble`
* `PropertiesSetup.C21_set_constraints`
* `PropertiesSetup.C22_constraints_prefix`
* `PropertiesSetup.C23_list`
* `PropertiesSetup.C23_individual`
* `PropertiesSetup.C23_single`
* `PropertiesSetup.C23_empty`
* `PropertiesSetup.C23_short_individual_drops`
* `PropertiesSetters.C23_single_individual`
* `PropertiesSetup.C24_filter`
* `PropertiesSetup.C24_unknown_ignored`
* `PropertiesSetup.C24_precedence_interaction`
* `PropertiesSetup.C24_precedence_entropy`
* `PropertiesSetup.C24_precedence_ensemble`
* `PropertiesSetup.compile_zip_spec`
* `PropertiesPhases.C31_from_phases`
* `PropertiesPhases.C32_zero`
* `PropertiesObjects.C33_entries`
* `PropertiesObjects.C33_symmetric`
* `PropertiesObjects.C33_mismatch`
* `PropertiesBlocks.C33_any`
* `PropertiesBlocks.C33_any_rejected`
* `PropertiesObjects.C34_vector`
* `PropertiesObjects.C34_matrix`
* `PropertiesBroadcast.C34_any`
* `PropertiesObjects.C37_setter_refuted`
* `PropertiesFreeEnergyCode.C41_constructor`
* `PropertiesPoly.C78_history`
* `PropertiesMeans.C79_activity`
* `PropertiesBlockArgs.C100_owner`

## `ClassicalDedekindReals.sig_forall_dec`

* `PropertiesSetup.C21_constructor`
* `PropertiesSetup.C22_reinit_atomic`
* `PropertiesSetup.C24_constructor_defaults`
* `PropertiesSetup.C25_from_omegas`
* `PropertiesSetup.C25_random`
* `PropertiesPhases.C26_constructor`
* `PropertiesPhases.C28_no_components`
* `PropertiesPhases.enrichment_spec`
* `PropertiesPoly.C78_features`

## `ClassicalDedekindReals.sig_forall_dec`, `FunctionalExtensionality.functional_extensionality_dep`

* `PropertiesKernel.C02_volumes_normalised`
* `PropertiesKernel.C04_dead_stays_dead`
* `PropertiesOneStep.C04_run`
* `PropertiesKernel.C05_random_revival`
* `PropertiesOneStep.C05_run`
* `PropertiesFinder.C06_budget_counts_revivals`
* `PropertiesFinder.C06_budget_bound`
* `PropertiesKernel.C07_copy_conserves`
* `WitnessKernel.C07_total_including_dead_refuted`
* `PropertiesKernel.C08_copy_succeeds`
* `PropertiesKernel.C08_copy_succeeds_default`
* `PropertiesKernel.C08_copy_only_failure`
* `WitnessKernel.C08_donors_can_be_exhausted`
* `PropertiesKernel.C09_volume_change_bounded`
* `PropertiesOneStep.C09_run`
* `PropertiesKernel.C10_common_damping`
* `PropertiesOneStep.C10_run`
* `PropertiesKernel.C13_field_error_bounds`
* `PropertiesFinder.C14_convergence_sound`
* `PropertiesFinder.C14_first_check`
* `PropertiesFinder.C14_unknown_criterion`
* `PropertiesFinder.C15_schedule`
* `PropertiesFinder.C15_zero_steps`
* `PropertiesFinder.C16_interval_irrelevant`
* `PropertiesFinder.C16_split_runs`
* `PropertiesRun.C17_shape`
* `PropertiesRun.C17_volumes`
* `PropertiesRun.C18_mean_one_start`
* `PropertiesRun.C18_mean_one_step`
* `PropertiesEnsembles.C19_same_parts`
* `PropertiesEnsembles.C19_shift_irrelevant`
* `PropertiesEnsembles.C19_same_zero_states`
* `PropertiesRun.C20_no_randomness`
* `PropertiesSetup.C21_always_compatible`
* `PropertiesSetup.C22_failed_set_frame`
* `PropertiesSetup.C25_multipliers_zero`
* `PropertiesSetup.C24_defaults_constant`
* `PropertiesSetters.C24_constructor_constraints`
* `PropertiesSetup.C25_from_phis`
* `PropertiesRelabel.C25_same_afterwards`
* `PropertiesPhases.C26_operations`
* `PropertiesPhases.C27_normalize`
* `PropertiesPhases.C28_sort`
* `PropertiesPhases.C29_conserved`
* `PropertiesPhases.C29_positive`
* `PropertiesPhases.C29_single`
* `PropertiesPhases.C30_sort_afterwards`
* `PropertiesPhases.C31_info_kept`
* `PropertiesPhases.C31_independent`
* `PropertiesPhases.C31_clusters_copy_refuted`
* `PropertiesPhases.C32_simplex`
* `PropertiesObjects.C34_fresh`
* `PropertiesBroadcast.C34_linear`
* `PropertiesObjects.C35_symmetric`
* `PropertiesObjects.C35_stored`
* `PropertiesObjects.C35_setter_stored`
* `PropertiesObjects.C35_diagonal`
* `PropertiesObjects.C35_failed_random_erases`
* `PropertiesObjects.C36_draws`
* `PropertiesObjects.C36_draws_refuted`
* `PropertiesObjects.C37_constructor`
* `PropertiesObjects.C37_asymmetric_refuted`
* `PropertiesFeatures.C38_energy_and_jacobian`
* `PropertiesFeatures.C39_feature_sums`
* `PropertiesFreeEnergy.C45_reduced`
* `PropertiesFreeEnergy.C47_any_component`
* `PropertiesConstraints.C49_local_residue`
* `PropertiesConstraints.C50_global_residue`
* `PropertiesConstraints.C51_local_multipliers`
* `PropertiesConstraints.C51_global_multipliers`
* `PropertiesConstraints.C51_no_constraint_idle`
* `PropertiesConstraints.C51_no_constraint_trajectory`
* `PropertiesEquilibrium.C52_constraints_hold`
* `PropertiesObjects.C55_interaction`
* `PropertiesObjects.C55_canonical`
* `WitnessObjects.C55_activity_refuted`
* `WitnessObjects.C55_constraint_refuted`
* `WitnessObjects.C55_block_refuted`
* `PropertiesShortcut.C29_between`
* `PropertiesMetrics.C62_builtin_constraints`
* `PropertiesMetrics.C62_metrics`
* `PropertiesMetrics.C62_one_step_run`
* `PropertiesHomogeneous.C64_from_phis`
* `PropertiesFlory.C69_creation`
* `PropertiesFlory.C69_independent`
* `PropertiesOwnership.C70_isolated`
* `PropertiesOwnership.C70_snapshots`
* `PropertiesOwnership.C70_results`
* `PropertiesOwnership.C70_copies`
* `PropertiesOwnership.C70_omegas_refuted`
* `PropertiesOwnership.C70_detached`
* `PropertiesOwnership.C70_shapes`
* `PropertiesConsistency.C73_tolerance`
* `PropertiesConsistency.C73_limit`
* `PropertiesConsistency.C73_limit_multiple`
* `PropertiesSharing.C75_method`
* `PropertiesSharing.C75_from`
* `PropertiesSharing.C75_consistent`
* `PropertiesSharing.C75_frame`
* `PropertiesSharing.C75_independent`
* `PropertiesSharing.C75_normalize_refuted`
* `PropertiesSharing.C75_chain`
* `PropertiesSharing.C75_write`
* `PropertiesWorld.C76_undisturbed`
* `PropertiesWorld.C76_separate`
* `PropertiesWorld.C76_same_second`
* `PropertiesWorld.C76_quiet_calls`
* `PropertiesPoly.C78_new`
* `PropertiesMeans.C79_canonical`
* `PropertiesMeans.C79_scalar`
* `PropertiesMeans.C79_silent_refuted`
* `PropertiesCopies.C82_from_omegas`
* `PropertiesSetters.C84_frame`
* `PropertiesSetters.C84_budget`
* `PropertiesSetters.C84_constructor`
* `PropertiesInterrupt.C86_interrupted`
* `PropertiesInterrupt.C86_places`
* `PropertiesInterrupt.C86_resume`
* `PropertiesInterrupt.C86_kernel_raises`
* `PropertiesArrays.C89_hessian`
* `PropertiesArrays.C89_stability`
* `PropertiesRelax.C90_step`
* `PropertiesEdit.C98_made`
* `PropertiesEdit.C98_stays`
* `PropertiesEdit.C98_values`
* `PropertiesBoundary.C99_stability`
* `PropertiesBlockArgs.C100_counts`
* `PropertiesBlockArgs.C100_entropy`

## `ClassicalDedekindReals.sig_forall_dec`, `ClassicalDedekindReals.sig_not_dec`, `FunctionalExtensionality.functional_extensionality_dep`

* `PropertiesKernel.C01_canonical_mean_ideal_gas`
* `PropertiesKernel.C01_canonical_mean_polydispersed`
* `PropertiesFinder.C03_never_extinct`
* `PropertiesFinder.C03_run_failures`
* `PropertiesFinder.C03_run_succeeds`
* `WitnessFinder.C06_strict_budget_refuted`
* `WitnessKernel.C13_documented_error_refuted`
* `WitnessFinder.C15_fractional_interval_refuted`
* `WitnessFinder.C16_split_runs_refuted`
* `PropertiesRun.C17_fractions`
* `PropertiesRun.C17_row_sums`
* `PropertiesRun.C17_converged`
* `PropertiesRun.C18_mean_fraction_bound`
* `WitnessSetup.C22_set_not_atomic_refuted`
* `WitnessSetup.C23_all_installed_refuted`
* `PropertiesRelabel.C25_builtin_regular`
* `PropertiesPhases.C30_clusters_sorted_refuted`
* `PropertiesFeatures.C39_total_conserved`
* `PropertiesFeatures.C39_one_component_per_feature`
* `PropertiesFeatures.C39_empty_feature_refuted`
* `PropertiesFeatures.C40_same_fractions`
* `PropertiesFeatures.C40_same_zero_states`
* `PropertiesEnsembles.C53_fractions`
* `PropertiesEnsembles.C54_canonical_as_grandcanonical`
* `PropertiesEnsembles.C54_grandcanonical_as_canonical`
* `PropertiesObjects.C55_entropy`
* `PropertiesObjects.C55_assignment`
* `PropertiesShortcut.C56_pipeline`
* `PropertiesShortcut.C56_succeeds`
* `PropertiesShortcut.C56_finder`
* `PropertiesShortcutArgs.C56_shift`
* `PropertiesShortcutArgs.C56_rejected`
* `PropertiesRelabel.C57_compartments`
* `PropertiesRelabel.C58_components`
* `PropertiesRelabel.C58_polydispersed`
* `PropertiesMetrics.C63_twins`
* `PropertiesMetrics.C63_from_omegas`
* `PropertiesHomogeneous.C64_steps`
* `PropertiesHomogeneous.C64_converges`
* `PropertiesHomogeneous.C64_run`
* `PropertiesGauge.C67_step`
* `PropertiesGauge.C68_steps`
* `PropertiesConsistency.C71_step`
* `PropertiesConsistency.C71_run`
* `PropertiesConsistency.C72_residue`
* `PropertiesConsistency.C72_incompatible`
* `PropertiesConsistency.C72_compatible`
* `WitnessConsistency.C73_any_limit_refuted`
* `PropertiesSplit.split_step`
* `PropertiesSplit.C74_split`
* `WitnessWorld.C76_shared_refuted`
* `PropertiesPoly.C78_partition`
* `PropertiesPoly.C78_compiled`
* `PropertiesPoly.C78_safe`
* `PropertiesPoly.C78_negative_refuted`
* `PropertiesPoly.C78_num_comp_refuted`
* `PropertiesMeans.C79_warned`
* `PropertiesAbsent.C81_step`
* `PropertiesAbsent.C81_run`
* `PropertiesAbsent.C81_field`
* `PropertiesAbsent.C81_restrict`
* `PropertiesAbsent.C81_extend`
* `PropertiesCopies.C82_steps`
* `PropertiesCopies.C82_run`
* `WitnessCopies.C82_elastic_refuted`
* `PropertiesInterrupt.C86_never_extinct`
* `PropertiesInterrupt.C86_next_run`
* `WitnessInterrupt.C86_budget_refuted`
* `PropertiesRelax.C90_bounded`
* `PropertiesRelax.C90_ideal`
* `PropertiesRelax.C90_ideal_run`
* `PropertiesMixing.C94_binary`
* `PropertiesMixing.C94_uniform`
* `PropertiesBlockArgs.C100_agree`
* `PropertiesBlockArgs.C100_same_errors_refuted`

## `ClassicalDedekindReals.sig_forall_dec`, `ClassicalDedekindReals.sig_not_dec`, `Classical_Prop.classic`, `FunctionalExtensionality.functional_extensionality_dep`

* `WitnessKernel.C09_documented_bound_refuted`
* `PropertiesEquilibrium.C11_step_bound`
* `PropertiesEquilibrium.C11_imbalance`
* `PropertiesEquilibrium.C11_run`
* `PropertiesEquilibrium.C12_zero_residuals`
* `PropertiesEquilibrium.C12_coexistence_stationary`
* `WitnessFinder.C18_exact_mean_refuted`
* `PropertiesFreeEnergy.C41_value`
* `PropertiesFreeEnergy.C41_rejected`
* `PropertiesFreeEnergy.C41_continuous`
* `PropertiesFreeEnergy.C41_rowwise`
* `PropertiesFreeEnergyCode.C41_total`
* `PropertiesFreeEnergy.C42_gradient`
* `PropertiesFreeEnergyCode.C42_of_computed`
* `PropertiesFreeEnergy.C43_conserved`
* `PropertiesFreeEnergy.C43_bad_index`
* `PropertiesFreeEnergyCode.C43_of_computed`
* `PropertiesFreeEnergy.C44_when`
* `PropertiesFreeEnergy.C44_unit_sizes`
* `PropertiesFreeEnergy.C44_refuted`
* `PropertiesFreeEnergyCode.C44_of_computed`
* `PropertiesFreeEnergy.C46_relations`
* `PropertiesFreeEnergy.C47_unit_sizes`
* `PropertiesFreeEnergy.C47_refuted`
* `PropertiesFreeEnergy.C48_zero`
* `PropertiesFreeEnergy.C48_single`
* `PropertiesFreeEnergy.C48_boundary_refuted`
* `PropertiesConstraints.C49_local_derivatives`
* `PropertiesConstraints.C50_global_derivatives`
* `PropertiesEquilibrium.C52_shifted_potentials`
* `PropertiesEquilibrium.C52_constrained_stationary`
* `PropertiesEnsembles.C53_exchange_potentials`
* `PropertiesEnsembles.C53_equal_sizes`
* `WitnessEquilibrium.C53_unequal_sizes_refuted`
* `PropertiesFreeEnergy.C58_free_energy`
* `PropertiesTheory.C59_derivatives`
* `PropertiesTheory.C59_original_energy`
* `PropertiesTheory.C59_stationary_points`
* `PropertiesFloat.C60_masks`
* `PropertiesFloat.C60_count`
* `PropertiesFloat.C60_nan`
* `PropertiesFloat.C61_ceiling`
* `PropertiesFloat.C61_schedule`
* `PropertiesFloat.C61_large_refuted`
* `PropertiesFloat.C61_interval_refuted`
* `PropertiesConvex.C65_zero`
* `PropertiesConvex.C65_canonical`
* `PropertiesConvex.C65_close`
* `PropertiesConvex.C65_run`
* `PropertiesConvex.C66_tangent`
* `PropertiesConvex.C66_run`
* `PropertiesConvex.C66_mean_energy`
* `PropertiesGauge.C67_energy`
* `PropertiesGauge.C68_energy`
* `PropertiesFlory.C69_follows`
* `PropertiesFlory.C69_determined`
* `PropertiesFlory.C69_random`
* `PropertiesFlory.C69_in_place_refuted`
* `PropertiesNorm.C77_default`
* `PropertiesNorm.C77_bound`
* `PropertiesNorm.C77_zero`
* `PropertiesNorm.C77_least`
* `PropertiesNorm.C77_unknown`
* `PropertiesNorm.C77_negative`
* `PropertiesNorm.C77_negative_refuted`
* `PropertiesMeans.C79_from_mu`
* `PropertiesSpinodal.C80_unstable`
* `PropertiesSpinodal.C80_stable`
* `PropertiesSpinodal.C80_sizes_refuted`
* `PropertiesSpinodal.C80_marginal_refuted`
* `WitnessAbsent.C81_same_convergence_refuted`
* `PropertiesFloatKernel.C83_nan`
* `PropertiesFloatKernel.C83_field_error_hides_nan`
* `PropertiesFloatKernel.C83_finite`
* `PropertiesFloatKernel.C83_converged`
* `PropertiesRounding.C85_incompressible`
* `PropertiesRounding.C85_fractions`
* `PropertiesRounding.C85_volumes_step`
* `PropertiesRounding.C85_volumes`
* `PropertiesRounding.C85_canonical_step`
* `PropertiesProgress.C87_range`
* `PropertiesProgress.C87_full`
* `PropertiesProgress.C87_converged`
* `PropertiesProgress.C87_run`
* `PropertiesProgress.C87_full_means_converged_refuted`
* `PropertiesProgress.C87_bars`
* `PropertiesPartition.C88_step`
* `PropertiesPartition.C88_canonical`
* `PropertiesPartition.C88_zero`
* `PropertiesPartition.C88_run`
* `PropertiesArrays.C89_energy`
* `PropertiesArrays.C89_values`
* `PropertiesArrays.C89_jacobian`
* `PropertiesArrays.C89_potentials`
* `PropertiesArrays.C89_exchange`
* `PropertiesArrays.C89_pressure`
* `PropertiesArrays.C89_rejected`
* `PropertiesArrays.C89_bad_index`
* `PropertiesArrays.C89_by_component`
* `PropertiesArrays.C89_by_both`
* `PropertiesArrays.C89_by_both_order`
* `PropertiesArrays.C89_axis_one`
* `PropertiesArrays.C89_two`
* `PropertiesArrays.C89_first_axis_one`
* `PropertiesArrays.C89_one`
* `PropertiesArrays.C89_refuted`
* `PropertiesBinary.C91_two_phases`
* `PropertiesBinary.C91_one_phase`
* `PropertiesBinary.C91_unique`
* `PropertiesBinary.C91_stable`
* `PropertiesBinary.C91_optimal`
* `PropertiesBinary.C91_lever`
* `PropertiesBinary.C91_diagram`
* `PropertiesAccuracy.C92_pair`
* `PropertiesAccuracy.C92_run`
* `PropertiesAccuracy.C92_converged`
* `PropertiesAccuracy.C92_mixed`
* `PropertiesAccuracy.C92_binodal`
* `PropertiesAccuracy.C92_binary`
* `PropertiesAccuracy.C92_grand`
* `PropertiesOptimum.C93_fixed`
* `PropertiesOptimum.C93_exists`
* `PropertiesOptimum.C93_stable_iff`
* `PropertiesOptimum.C93_unique`
* `PropertiesOptimum.C93_run`
* `PropertiesMixing.C94_homogeneous`
* `PropertiesMixing.C94_canonical`
* `PropertiesMixing.C94_run`
* `PropertiesMixing.C94_demixes`
* `PropertiesMixing.C94_iff`
* `PropertiesMixing.C94_optimal`
* `PropertiesContract.C95_converges`
* `PropertiesContract.C95_ideal`
* `PropertiesContract.C95_run`
* `PropertiesContract.C95_survive`
* `PropertiesContract.C95_survive_run`
* `PropertiesFloatError.C96_step_accurate`
* `PropertiesFloatParts.C96_package`
* `PropertiesFloatParts.package_accurate`
* `PropertiesFloatParts.local_accurate`
* `PropertiesFloatParts.global_accurate`
* `PropertiesFloatParts.dot_loop_accurate`
* `WitnessFloatError.exact_exp`
* `PropertiesFloatParts.C96_multipliers`
* `PropertiesFloatRevive.C97_copy`
* `PropertiesFloatRevive.C97_copy_succeeds`
* `PropertiesFloatRevive.C97_random`
* `PropertiesFloatRevive.C97_revive_step`
* `PropertiesFloatRevive.C97_budget`
* `PropertiesBoundary.C99_values`
* `PropertiesBoundary.C99_limit`
* `PropertiesBoundary.C99_exchange`
* `PropertiesBoundary.C99_hessian`
* `PropertiesBoundary.C99_leave_out`
* `PropertiesFloatConverge.C101_steps`
* `PropertiesFloatConverge.C101_run`
* `PropertiesFloatBalance.C102_step`
* `PropertiesFloatBalance.C102_run`
* `PropertiesFloatUniform.C103_uniform`
* `PropertiesFloatUniform.C103_mean`
* `PropertiesFloatUniform.C103_canonical`
* `PropertiesFloatUniform.C103_moderate`
* `PropertiesFloatUniform.spread_bound`
