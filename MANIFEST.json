{
 "claims": [
  {
   "property": "C01",
   "status": "proved",
   "theorems": [
    "C01_canonical_mean_ideal_gas",
    "C01_canonical_mean_polydispersed"
   ],
   "note": "One step of the kernel from any state; sum identity over any number of components and compartments."
  },
  {
   "property": "C02",
   "status": "proved",
   "theorems": [
    "C02_volumes_normalised"
   ],
   "note": "Arbitrary interaction/entropy/ensemble/constraints."
  },
  {
   "property": "C03",
   "status": "proved",
   "theorems": [
    "C03_never_extinct",
    "C03_run_failures",
    "C03_run_succeeds"
   ],
   "note": "Invariant over every history of constructor/method calls with the package's own parts."
  },
  {
   "property": "C04",
   "status": "proved",
   "theorems": [
    "C04_dead_stays_dead",
    "C04_run"
   ],
   "note": "Induction over the steps."
  },
  {
   "property": "C05",
   "status": "proved",
   "theorems": [
    "C05_random_revival",
    "C05_run"
   ],
   "note": "Loop invariant; generator is any state machine meeting the range contract."
  },
  {
   "property": "C06",
   "status": "proved",
   "theorems": [
    "C06_budget_counts_revivals",
    "C06_budget_bound",
    "C06_strict_budget_refuted"
   ],
   "note": "Bound budget + num_part - 1; the strict bound is refuted by a witness run."
  },
  {
   "property": "C07",
   "status": "proved",
   "theorems": [
    "C07_copy_conserves",
    "C07_total_including_dead_refuted"
   ],
   "note": "Conservation over living compartments; docstring's stronger claim refuted by a witness."
  },
  {
   "property": "C08",
   "status": "proved",
   "theorems": [
    "C08_copy_succeeds",
    "C08_copy_succeeds_default",
    "C08_copy_only_failure",
    "C08_donors_can_be_exhausted"
   ],
   "note": "For every random stream."
  },
  {
   "property": "C09",
   "status": "proved",
   "theorems": [
    "C09_volume_change_bounded",
    "C09_documented_bound_refuted",
    "C09_run"
   ],
   "note": "Factor two proved, documented constant refuted."
  },
  {
   "property": "C10",
   "status": "proved",
   "theorems": [
    "C10_common_damping",
    "C10_run"
   ],
   "note": "Residuals independent of damping parameters; one common factor."
  },
  {
   "property": "C11",
   "status": "proved",
   "theorems": [
    "C11_step_bound",
    "C11_imbalance",
    "C11_run"
   ],
   "note": "Explicit multiple; the field error is a signed maximum, so the bound uses nf times it plus the incompressibility term. Also for whole runs, both ensembles and both entropies."
  },
  {
   "property": "C12",
   "status": "proved",
   "theorems": [
    "C12_zero_residuals",
    "C12_coexistence_stationary"
   ],
   "note": ""
  },
  {
   "property": "C13",
   "status": "proved",
   "theorems": [
    "C13_field_error_bounds",
    "C13_documented_error_refuted"
   ],
   "note": "Signed maximum; absolute value bounded through the incompressibility error; documented meaning refuted."
  },
  {
   "property": "C14",
   "status": "proved",
   "theorems": [
    "C14_convergence_sound",
    "C14_first_check",
    "C14_unknown_criterion"
   ],
   "note": "Any parts, any generator."
  },
  {
   "property": "C15",
   "status": "proved",
   "theorems": [
    "C15_schedule",
    "C15_zero_steps",
    "C15_fractional_interval_refuted"
   ],
   "note": "Integer intervals; a fractional interval overshoots max_steps (witness)."
  },
  {
   "property": "C16",
   "status": "proved",
   "theorems": [
    "C16_interval_irrelevant",
    "C16_split_runs",
    "C16_split_runs_refuted"
   ],
   "note": "Interval: any; splitting into several runs: when nothing is dead at the end of the first run, with a witness that this is needed."
  },
  {
   "property": "C17",
   "status": "proved",
   "theorems": [
    "C17_shape",
    "C17_volumes",
    "C17_fractions",
    "C17_row_sums",
    "C17_converged"
   ],
   "note": "Built-in parts; volumes for any parts."
  },
  {
   "property": "C18",
   "status": "proved",
   "theorems": [
    "C18_mean_fraction_bound",
    "C18_mean_one_start",
    "C18_mean_one_step",
    "C18_exact_mean_refuted"
   ],
   "note": "Explicit bound for converged runs; exact equality refuted."
  },
  {
   "property": "C19",
   "status": "proved",
   "theorems": [
    "C19_same_parts",
    "C19_shift_irrelevant",
    "C19_same_zero_states"
   ],
   "note": ""
  },
  {
   "property": "C20",
   "status": "proved",
   "theorems": [
    "C20_no_randomness"
   ],
   "note": "Two generators of different types; identical result and state."
  },
  {
   "property": "C21",
   "status": "proved",
   "theorems": [
    "C21_constructor",
    "C21_set_interaction",
    "C21_set_entropy",
    "C21_set_ensemble",
    "C21_set_constraints",
    "C21_always_compatible"
   ],
   "note": "Constructor and every setter; invariant along calls."
  },
  {
   "property": "C22",
   "status": "proved",
   "theorems": [
    "C22_reinit_atomic",
    "C22_failed_set_frame",
    "C22_set_not_atomic_refuted",
    "C22_constraints_prefix"
   ],
   "note": "Reinitialisation is atomic; setters are not (witnesses), with a frame theorem for what they can damage."
  },
  {
   "property": "C23",
   "status": "proved",
   "theorems": [
    "C23_list",
    "C23_individual",
    "C23_single",
    "C23_empty",
    "C23_short_individual_drops",
    "C23_all_installed_refuted",
    "C25_multipliers_zero",
    "C23_single_individual"
   ],
   "note": "The truncation by zip is proved and witnessed."
  },
  {
   "property": "C24",
   "status": "proved",
   "theorems": [
    "C24_filter",
    "C24_unknown_ignored",
    "C24_precedence_interaction",
    "C24_precedence_entropy",
    "C24_precedence_ensemble",
    "compile_zip_spec",
    "C24_defaults_constant",
    "C24_constructor_defaults",
    "C24_constructor_constraints"
   ],
   "note": "Keyword filtering and precedence."
  },
  {
   "property": "C25",
   "status": "proved",
   "theorems": [
    "C25_from_omegas",
    "C25_from_phis",
    "C25_random",
    "C25_multipliers_zero",
    "C25_same_afterwards",
    "C25_builtin_regular"
   ],
   "note": "Second part: equal traces of every later call sequence, built-in parts and constraints."
  },
  {
   "property": "C26",
   "status": "proved",
   "theorems": [
    "C26_constructor",
    "C26_operations"
   ],
   "note": "Constructor on arbitrary arrays; any sequence of operations, each with its own sorting and clustering outcome."
  },
  {
   "property": "C27",
   "status": "proved",
   "theorems": [
    "C27_normalize"
   ],
   "note": "All clauses incl. idempotence."
  },
  {
   "property": "C28",
   "status": "proved",
   "theorems": [
    "C28_sort",
    "C28_no_components",
    "enrichment_spec"
   ],
   "note": "Any admissible tie-breaking of argsort; zero components raise TypeError."
  },
  {
   "property": "C29",
   "status": "proved",
   "theorems": [
    "C29_conserved",
    "C29_positive",
    "C29_single"
   ],
   "note": "Any labelling."
  },
  {
   "property": "C30",
   "status": "proved",
   "theorems": [
    "C30_clusters_sorted_refuted",
    "C30_sort_afterwards"
   ],
   "note": "The docstring's claim is refuted for every clustering that depends on distances only and separates two far phases; sorting afterwards gives sorted phases."
  },
  {
   "property": "C31",
   "status": "proved",
   "theorems": [
    "C31_info_kept",
    "C31_independent",
    "C31_clusters_copy_refuted",
    "C31_from_phases"
   ],
   "note": "Sequences of operations on objects with a heap of dictionaries."
  },
  {
   "property": "C32",
   "status": "proved",
   "theorems": [
    "C32_simplex",
    "C32_zero"
   ],
   "note": "Exact real arithmetic."
  },
  {
   "property": "C33",
   "status": "proved",
   "theorems": [
    "C33_entries",
    "C33_symmetric",
    "C33_mismatch",
    "C33_any",
    "C33_any_rejected"
   ],
   "note": "Two-dimensional arrays; zero-size blocks included."
  },
  {
   "property": "C34",
   "status": "proved",
   "theorems": [
    "C34_vector",
    "C34_matrix",
    "C34_fresh",
    "C34_any",
    "C34_linear"
   ],
   "note": "C34_any covers every source and target shape; C34_vector and C34_matrix spell out the targets [n] and [n, n]; the freshness part is stated for every constructor and setter that broadcasts."
  },
  {
   "property": "C35",
   "status": "proved",
   "theorems": [
    "C35_symmetric",
    "C35_stored",
    "C35_setter_stored",
    "C35_diagonal",
    "C35_failed_random_erases"
   ],
   "note": "Sequences of operations through the API; a direct write into the returned array is outside the claim. A negative chi_std erases the matrix before raising."
  },
  {
   "property": "C36",
   "status": "proved",
   "theorems": [
    "C36_draws",
    "C36_draws_refuted"
   ],
   "note": "True unless the matrix was left with integer type; refuted otherwise."
  },
  {
   "property": "C37",
   "status": "proved",
   "theorems": [
    "C37_constructor",
    "C37_asymmetric_refuted",
    "C37_setter_refuted"
   ],
   "note": "The claim is refuted: setter and asymmetric constructor raise AttributeError for every input; symmetric constructor proved correct."
  },
  {
   "property": "C38",
   "status": "proved",
   "theorems": [
    "C38_energy_and_jacobian"
   ],
   "note": "For every constructed block interaction, empty features included."
  },
  {
   "property": "C39",
   "status": "proved",
   "theorems": [
    "C39_feature_sums",
    "C39_total_conserved",
    "C39_one_component_per_feature",
    "C39_empty_feature_refuted"
   ],
   "note": "Refuted for empty features."
  },
  {
   "property": "C40",
   "status": "proved",
   "theorems": [
    "C40_same_fractions",
    "C40_same_zero_states"
   ],
   "note": "Without constraints."
  },
  {
   "property": "C41",
   "status": "proved",
   "theorems": [
    "C41_value",
    "C41_rejected",
    "C41_continuous",
    "C41_rowwise",
    "C41_constructor",
    "C41_total"
   ],
   "note": "1D and 2D arrays; continuity in every direction including the boundary; C41_rowwise: rows of a 2D array are treated independently by all functions of the class."
  },
  {
   "property": "C42",
   "status": "proved",
   "theorems": [
    "C42_gradient",
    "C42_of_computed"
   ],
   "note": "Partial derivatives and all directional derivatives (Coquelicot is_derive)."
  },
  {
   "property": "C43",
   "status": "proved",
   "theorems": [
    "C43_conserved",
    "C43_bad_index",
    "C43_of_computed"
   ],
   "note": "Negative Python indices included; IndexError out of range."
  },
  {
   "property": "C44",
   "status": "proved",
   "theorems": [
    "C44_when",
    "C44_unit_sizes",
    "C44_refuted",
    "C44_of_computed"
   ],
   "note": "Exact characterisation: an entry is the second derivative iff off-diagonal or size squared is one; the general claim is refuted for every mixture with a positive size different from one."
  },
  {
   "property": "C45",
   "status": "proved",
   "theorems": [
    "C45_reduced"
   ],
   "note": "Symmetry, shape, and equality of quadratic forms on all zero-sum directions."
  },
  {
   "property": "C46",
   "status": "proved",
   "theorems": [
    "C46_relations",
    "C41_rowwise"
   ],
   "note": "Stated for one composition; C41_rowwise lifts it to 2D arrays."
  },
  {
   "property": "C47",
   "status": "proved",
   "theorems": [
    "C47_unit_sizes",
    "C47_any_component",
    "C47_refuted"
   ],
   "note": "numpy.linalg.eigvalsh enters only through the hypothesis that, for the matrix concerned, it returns the eigenvalues of an orthonormal diagonalisation."
  },
  {
   "property": "C48",
   "status": "proved",
   "theorems": [
    "C48_zero",
    "C48_single",
    "C48_boundary_refuted"
   ],
   "note": "order=None (2-norm)."
  },
  {
   "property": "C49",
   "status": "proved",
   "theorems": [
    "C49_local_derivatives",
    "C49_local_residue"
   ],
   "note": "Derivatives in the sense of Coquelicot is_derive of the Lagrangian in the docstring."
  },
  {
   "property": "C50",
   "status": "proved",
   "theorems": [
    "C50_global_derivatives",
    "C50_global_residue"
   ],
   "note": "Derivatives in the sense of Coquelicot is_derive of the Lagrangian in the docstring."
  },
  {
   "property": "C51",
   "status": "proved",
   "theorems": [
    "C51_local_multipliers",
    "C51_global_multipliers",
    "C51_no_constraint_idle",
    "C51_no_constraint_trajectory"
   ],
   "note": ""
  },
  {
   "property": "C52",
   "status": "proved",
   "theorems": [
    "C52_shifted_potentials",
    "C52_constraints_hold",
    "C52_constrained_stationary"
   ],
   "note": ""
  },
  {
   "property": "C53",
   "status": "proved",
   "theorems": [
    "C53_fractions",
    "C53_exchange_potentials",
    "C53_equal_sizes",
    "C53_unequal_sizes_refuted"
   ],
   "note": "The requested differences are refuted for unequal sizes; C53_exchange_potentials gives the exact offset."
  },
  {
   "property": "C54",
   "status": "proved",
   "theorems": [
    "C54_canonical_as_grandcanonical",
    "C54_grandcanonical_as_canonical"
   ],
   "note": "Whole step, errors included, from every state."
  },
  {
   "property": "C55",
   "status": "proved",
   "theorems": [
    "C55_interaction",
    "C55_entropy",
    "C55_canonical",
    "C55_assignment",
    "C55_activity_refuted",
    "C55_constraint_refuted",
    "C55_block_refuted"
   ],
   "note": "Owned parts proved for every sequence of user actions; the shared arrays are refuted by concrete writes."
  },
  {
   "property": "C56",
   "status": "proved",
   "theorems": [
    "C56_pipeline",
    "C56_succeeds",
    "C56_finder",
    "C29_between",
    "C56_shift",
    "C56_rejected"
   ],
   "note": ""
  },
  {
   "property": "C57",
   "status": "proved",
   "theorems": [
    "C57_compartments"
   ],
   "note": "Any number of steps without revive budget, all built-in parts and constraints."
  },
  {
   "property": "C58",
   "status": "proved",
   "theorems": [
    "C58_components",
    "C58_polydispersed",
    "C58_free_energy"
   ],
   "note": "Steps (both entropies) and free energies."
  },
  {
   "property": "C59",
   "status": "proved",
   "theorems": [
    "C59_derivatives",
    "C59_original_energy",
    "C59_stationary_points"
   ],
   "note": "WitnessTheory.v holds a non-equilibrium case and the demixed blend. The derivative in the volume equals the local energy only up to the residuals weighted by the fractions, as the theorem states."
  },
  {
   "property": "C60",
   "status": "proved",
   "theorems": [
    "C60_masks",
    "C60_count",
    "C60_nan"
   ],
   "note": "Binary64 of Flocq, all finite volumes and thresholds."
  },
  {
   "property": "C61",
   "status": "proved",
   "theorems": [
    "C61_ceiling",
    "C61_schedule",
    "C61_large_refuted",
    "C61_interval_refuted"
   ],
   "note": "CPython's integer division is taken to round once to nearest."
  },
  {
   "property": "C62",
   "status": "proved",
   "theorems": [
    "C62_builtin_constraints",
    "C62_metrics",
    "C62_one_step_run"
   ],
   "note": "Arbitrary interaction, entropy and ensemble; the constraint residue needs a constraint whose residue ignores the step, which all built-in ones satisfy."
  },
  {
   "property": "C63",
   "status": "proved",
   "theorems": [
    "C63_twins",
    "C63_from_omegas"
   ],
   "note": ""
  },
  {
   "property": "C64",
   "status": "proved",
   "theorems": [
    "C64_steps",
    "C64_converges",
    "C64_run",
    "C64_from_phis"
   ],
   "note": "Real arithmetic; constraints inactive."
  },
  {
   "property": "C65",
   "status": "proved",
   "theorems": [
    "C65_zero",
    "C65_canonical",
    "C65_close",
    "C65_run"
   ],
   "note": "Constraints inactive. never_attractive is positive semidefiniteness of chi on vectors of zero sum; the quantitative version uses chi + kappa*11^T positive semidefinite."
  },
  {
   "property": "C66",
   "status": "proved",
   "theorems": [
    "C66_tangent",
    "C66_run",
    "C66_mean_energy"
   ],
   "note": "Constraints inactive."
  },
  {
   "property": "C67",
   "status": "proved",
   "theorems": [
    "C67_energy",
    "C67_step"
   ],
   "note": "Constraints inactive. Away from unit total fractions the additional term of the code's Lagrange multiplier breaks the invariance, so only steps from incompressible states are compared."
  },
  {
   "property": "C68",
   "status": "proved",
   "theorems": [
    "C68_energy",
    "C68_steps"
   ],
   "note": "Constraints inactive. acceptance_Js multiplies an energy, so it has to be rescaled with the unit."
  },
  {
   "property": "C69",
   "status": "proved",
   "theorems": [
    "C69_creation",
    "C69_follows",
    "C69_independent",
    "C69_determined",
    "C69_random",
    "C69_in_place_refuted"
   ],
   "note": "Writing entries of the live chis array in place is outside the setters and is refuted."
  },
  {
   "property": "C70",
   "status": "proved",
   "theorems": [
    "C70_isolated",
    "C70_snapshots",
    "C70_results",
    "C70_copies",
    "C70_omegas_refuted",
    "C70_detached",
    "C70_shapes"
   ],
   "note": "Built on the histories of ModelHistory; the read-only documentation of omegas is refuted."
  },
  {
   "property": "C71",
   "status": "proved",
   "theorems": [
    "C71_step",
    "C71_run"
   ],
   "note": "Canonical ensemble with a built-in entropy; interaction and constraints arbitrary."
  },
  {
   "property": "C72",
   "status": "proved",
   "theorems": [
    "C72_residue",
    "C72_incompatible",
    "C72_compatible"
   ],
   "note": "Canonical ensemble with a built-in entropy; all features of the polydispersed entropy non-empty."
  },
  {
   "property": "C73",
   "status": "proved",
   "theorems": [
    "C73_tolerance",
    "C73_limit",
    "C73_limit_multiple",
    "C73_any_limit_refuted"
   ],
   "note": "The claim for arbitrary larger limits is refuted."
  },
  {
   "property": "C74",
   "status": "proved",
   "theorems": [
    "split_step",
    "C74_split"
   ],
   "note": "All features of the polydispersed entropy non-empty. Same ensemble class on both sides."
  },
  {
   "property": "C75",
   "status": "proved",
   "theorems": [
    "C75_method",
    "C75_from",
    "C75_consistent",
    "C75_frame",
    "C75_independent",
    "C75_normalize_refuted",
    "C75_chain",
    "C75_write"
   ],
   "note": "The independence of normalize is refuted; arrays given by the user are not views of each other."
  },
  {
   "property": "C76",
   "status": "proved",
   "theorems": [
    "C76_undisturbed",
    "C76_separate",
    "C76_same_second",
    "C76_quiet_calls",
    "C76_shared_refuted",
    "C20_no_randomness"
   ],
   "note": "Independence of finders sharing a generator is refuted."
  },
  {
   "property": "C77",
   "status": "proved",
   "theorems": [
    "C77_default",
    "C77_bound",
    "C77_zero",
    "C77_least",
    "C77_unknown",
    "C77_negative",
    "C77_negative_refuted"
   ],
   "note": "Singular values (order 2 and -2, axis=None) are arbitrary numbers with their defining property as hypothesis. Balance is refuted for negative orders."
  },
  {
   "property": "C78",
   "status": "proved",
   "theorems": [
    "C78_new",
    "C78_history",
    "C78_partition",
    "C78_features",
    "C78_compiled",
    "C78_safe",
    "C78_negative_refuted",
    "C78_num_comp_refuted"
   ],
   "note": "Safety is refuted for negative counts and after assigning num_comp. Counts fit into int32."
  },
  {
   "property": "C79",
   "status": "proved",
   "theorems": [
    "C79_canonical",
    "C79_scalar",
    "C79_warned",
    "C79_silent_refuted",
    "C79_activity",
    "C79_from_mu"
   ],
   "note": "Completeness of the warning for the default tolerance is refuted."
  },
  {
   "property": "C80",
   "status": "proved",
   "theorems": [
    "C80_unstable",
    "C80_stable",
    "C80_sizes_refuted",
    "C80_marginal_refuted"
   ],
   "note": "numpy.linalg.eigvalsh enters through the same contract as in C47. Unit sizes are covered by both directions."
  },
  {
   "property": "C81",
   "status": "proved",
   "theorems": [
    "C81_step",
    "C81_run",
    "C81_field",
    "C81_restrict",
    "C81_extend",
    "C81_same_convergence_refuted"
   ],
   "note": "C81_step and C81_run cover both built-in entropies; C81_restrict and C81_extend cover IdealGasEntropy, without active constraints."
  },
  {
   "property": "C82",
   "status": "proved",
   "theorems": [
    "C82_steps",
    "C82_run",
    "C82_from_omegas",
    "C82_elastic_refuted"
   ],
   "note": "Runs are compared when no compartment is dead at the end, because the final replacement of dead compartments draws random numbers; steps are compared in any case."
  },
  {
   "property": "C83",
   "status": "proved",
   "theorems": [
    "C83_nan",
    "C83_field_error_hides_nan",
    "C83_finite",
    "C83_converged"
   ],
   "note": "Binary64 model of the kernel and of the loop of run. The interaction, the map to features, the constraints and np.exp are arbitrary functions on binary64 arrays; the conversion of a NaN to an integer is arbitrary."
  },
  {
   "property": "C84",
   "status": "proved",
   "theorems": [
    "C84_frame",
    "C84_budget",
    "C84_constructor"
   ],
   "note": "After an exception inside a metastep the model keeps the arrays from before it, see DESIGN.md section 4."
  },
  {
   "property": "C85",
   "status": "proved",
   "theorems": [
    "C85_incompressible",
    "C85_fractions",
    "C85_volumes_step",
    "C85_volumes",
    "C85_canonical_step"
   ],
   "note": "Summation in index order; BLAS products and exp are arbitrary functions."
  },
  {
   "property": "C86",
   "status": "proved",
   "theorems": [
    "C86_interrupted",
    "C86_places",
    "C86_resume",
    "C86_never_extinct",
    "C86_next_run",
    "C86_kernel_raises",
    "C86_budget_refuted"
   ],
   "note": "Signals are seen between bytecodes, i.e. not inside compiled code. C86_budget_refuted is the exception named in the statement."
  },
  {
   "property": "C87",
   "status": "proved",
   "theorems": [
    "C87_range",
    "C87_full",
    "C87_converged",
    "C87_run",
    "C87_full_means_converged_refuted",
    "C87_bars"
   ],
   "note": "Lengths of the bars as real numbers, round(.,1) as rounding to the nearest tenth with ties to even; tqdm itself is not modelled."
  },
  {
   "property": "C88",
   "status": "proved",
   "theorems": [
    "C88_step",
    "C88_canonical",
    "C88_zero",
    "C88_run"
   ],
   "note": "Positive sizes and phi_means (activities); the explicit slack is the definition leeway."
  },
  {
   "property": "C89",
   "status": "proved",
   "theorems": [
    "C89_energy",
    "C89_values",
    "C89_jacobian",
    "C89_hessian",
    "C89_potentials",
    "C89_exchange",
    "C89_pressure",
    "C89_stability",
    "C89_rejected",
    "C89_bad_index",
    "C89_by_component",
    "C89_by_both",
    "C89_by_both_order",
    "C89_axis_one",
    "C89_two",
    "C89_first_axis_one",
    "C89_one",
    "C89_refuted"
   ],
   "note": "The first sentence extends C41-C48 to all shapes. C89_refuted shows two unbalanced phases in an array of shape (1, 2, 2) for which every error is zero. eigvalsh is only assumed to return one value per row."
  },
  {
   "property": "C90",
   "status": "proved",
   "theorems": [
    "C90_step",
    "C90_bounded",
    "C90_ideal",
    "C90_ideal_run"
   ],
   "note": "C90_bounded and C90_ideal assume that no revivals are left (revived compartments get fields drawn at random)."
  },
  {
   "property": "C91",
   "status": "proved",
   "theorems": [
    "C91_two_phases",
    "C91_one_phase",
    "C91_unique",
    "C91_stable",
    "C91_optimal",
    "C91_lever",
    "C91_diagram"
   ],
   "note": "About states whose reported errors vanish exactly (fixed points of the iteration)."
  },
  {
   "property": "C92",
   "status": "proved",
   "theorems": [
    "C92_pair",
    "C92_run",
    "C92_converged",
    "C92_mixed",
    "C92_binodal",
    "C92_binary",
    "C92_grand"
   ],
   "note": "tol is shown to exist, not computed. The exact solution need not be the state of lowest free energy."
  },
  {
   "property": "C93",
   "status": "proved",
   "theorems": [
    "C93_fixed",
    "C93_exists",
    "C93_stable_iff",
    "C93_unique",
    "C93_run"
   ],
   "note": "Says which states are the goal, not that a run from a random state reaches it."
  },
  {
   "property": "C94",
   "status": "proved",
   "theorems": [
    "C94_homogeneous",
    "C94_canonical",
    "C94_run",
    "C94_demixes",
    "C94_iff",
    "C94_optimal",
    "C94_binary",
    "C94_uniform"
   ],
   "note": ""
  },
  {
   "property": "C95",
   "status": "proved",
   "theorems": [
    "C95_converges",
    "C95_ideal",
    "C95_run",
    "C95_survive",
    "C95_survive_run"
   ],
   "note": "Exact real arithmetic; the conditions are sufficient, not necessary. The default parameters meet them only for weak interactions and small initial fields."
  },
  {
   "property": "C96",
   "status": "proved",
   "theorems": [
    "C96_step_accurate",
    "C96_package",
    "package_accurate",
    "local_accurate",
    "global_accurate",
    "dot_loop_accurate",
    "exact_exp",
    "C96_multipliers"
   ],
   "note": "One step; the accuracy of np.exp and of the BLAS products is a hypothesis, met by correctly rounded exp and by the loop from left to right. The updated multipliers of constraints are not covered."
  },
  {
   "property": "C97",
   "status": "proved",
   "theorems": [
    "C97_copy",
    "C97_copy_succeeds",
    "C97_random",
    "C97_revive_step",
    "C97_budget"
   ],
   "note": "The generator is assumed to return the same integers and floats in both arithmetics."
  },
  {
   "property": "C98",
   "status": "proved",
   "theorems": [
    "C98_made",
    "C98_stays",
    "C98_values"
   ],
   "note": ""
  },
  {
   "property": "C99",
   "status": "proved",
   "theorems": [
    "C99_values",
    "C99_limit",
    "C99_exchange",
    "C99_hessian",
    "C99_leave_out",
    "C99_stability"
   ],
   "note": "The eigenvalue solver is a parameter; whether LAPACK answers nan or raises for an infinite matrix is not modelled."
  },
  {
   "property": "C100",
   "status": "proved",
   "theorems": [
    "C100_owner",
    "C100_counts",
    "C100_agree",
    "C100_entropy",
    "C100_same_errors_refuted"
   ],
   "note": ""
  },
  {
   "property": "C101",
   "status": "proved",
   "theorems": [
    "C101_steps",
    "C101_run"
   ],
   "note": "the exponential of the platform is a parameter of bounded relative error; conditions on chis, acceptances and rounding are explicit inequalities met by the concrete case in WitnessFloatConverge.v"
  },
  {
   "property": "C102",
   "status": "proved",
   "theorems": [
    "C102_step",
    "C102_run"
   ],
   "note": "numbers entering the last step are assumed to lie within the scales (moderate64); the step count of that state is bounded (leads); chemical potentials are evaluated in real arithmetic at the binary64 fractions; the concrete case is in WitnessFloatBalance.v"
  },
  {
   "property": "C103",
   "status": "proved",
   "theorems": [
    "C103_uniform",
    "C103_mean",
    "C103_canonical",
    "C103_moderate",
    "spread_bound"
   ],
   "note": "fractions of the returned phases are assumed to be at least lo, and the state entering the last step to lie within the scales (moderate64), which C103_moderate derives for the mixtures of C101; the concrete case (640 steps, tolerance 2^-16) is in WitnessFloatUniform.v"
  }
 ]
}