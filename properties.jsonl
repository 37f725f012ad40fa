{"id": "C01", "title": "Canonical ensemble conserves every component at every iteration", "statement": "With a CanonicalEnsemble, the component volume fractions produced by any iteration step, averaged over compartments with the compartment volumes used in that step, equal phi_means exactly, component by component, for both the plain and the polydispersed ideal-gas entropy.", "quantifier": "every number of components/features/compartments, every field, every volume vector with non-negative non-vanishing volumes, every phi_means, every sizes, every constraint list, every step of every run", "why_tests_cant": "a test samples a few mixtures and only looks at the converged end; the claim is an identity for every iterate of every trajectory", "anchors": ["flory/mcmp/_finder_impl.py:multicomponent_self_consistent_metastep", "flory/ensemble/canonical.py:CanonicalEnsembleCompiled.normalize", "flory/entropy/ideal_gas.py:IdealGasEntropyCompiled.partition", "flory/entropy/ideal_gas_polydispersed.py:IdealGasPolydispersedEntropyCompiled.partition"]}
{"id": "C02", "title": "Compartment volumes stay normalised", "statement": "After every iteration step the compartment volumes sum to the number of compartments that were alive in that step (the living compartments have average relative volume one) and every compartment that was dead has volume exactly zero, whatever interaction, entropy, ensemble and constraints are plugged in.", "quantifier": "every interaction/entropy/ensemble/constraint object, every state, every parameter setting, every step", "why_tests_cant": "unbounded number of states and user-supplied objects; a test can only sample trajectories", "anchors": ["flory/mcmp/_finder_impl.py:multicomponent_self_consistent_metastep"]}
{"id": "C03", "title": "The system never goes extinct and a step never divides by zero", "statement": "If 0 <= kill_threshold < 1, Js_step_upper_bound > 0 and the run starts from any (re)initialisation, then before every step at least one compartment is alive and no step raises ZeroDivisionError (no division by the number of living compartments, the total volume, a partition function or the maximal change is ever a division by zero).", "quantifier": "every history of steps and revivals, every random stream, every mixture", "why_tests_cant": "extinction would only show on rare histories; the invariant has to hold at every reachable state", "anchors": ["flory/mcmp/_finder_impl.py:multicomponent_self_consistent_metastep", "flory/ensemble/canonical.py:CanonicalEnsembleCompiled.normalize", "flory/entropy/ideal_gas.py:IdealGasEntropyCompiled.partition"]}
{"id": "C04", "title": "A dead compartment stays dead without revive budget", "statement": "Once the revive budget is exhausted, a compartment whose volume is at or below kill_threshold at the beginning of a step has volume 0, conjugate fields 0 and component fractions 0 after that step and after every later step of any run.", "quantifier": "every state, every number of further steps, every mixture, kill_threshold >= 0", "why_tests_cant": "quantifies over unbounded histories", "anchors": ["flory/mcmp/_finder_impl.py:multicomponent_self_consistent_metastep", "flory/mcmp/_finder_impl.py:make_valid_compartment_masks"]}
{"id": "C05", "title": "Random revival touches exactly the dead compartments", "statement": "Random revival sets the volume of exactly those compartments with volume <= threshold to one and redraws their fields inside [centre - scaler*halfwidth, centre + scaler*halfwidth] of the current field range (hence inside the current [min,max] when 0 <= scaler <= 1); living compartments keep volume and fields; the returned count is the number of dead compartments; exactly count*num_feat random numbers are consumed, none if nothing is dead.", "quantifier": "every field, volume vector, threshold, non-negative scaler, every random stream", "why_tests_cant": "random draws: a test sees one stream", "anchors": ["flory/mcmp/_finder_impl.py:revive_compartments_by_random"]}
{"id": "C06", "title": "The revive budget is a budget", "statement": "Over any sequence of runs between two resets the total number of revivals never exceeds max_revive_per_compartment * num_part (documented: when this value is exhausted, the revive will be turned off), and no revival happens once the reported remaining budget is <= 0. (The strict form is false: one step may overshoot; the bound budget + num_part - 1 holds.)", "quantifier": "every history of runs, every random stream, every budget including negative ones", "why_tests_cant": "overshoot needs several compartments dying in the same step with an almost empty budget", "anchors": ["flory/mcmp/_finder_impl.py:multicomponent_self_consistent_metastep", "flory/mcmp/finder.py:CoexistingPhasesFinder.run", "flory/mcmp/finder.py:CoexistingPhasesFinder.reset_revive"]}
{"id": "C07", "title": "Reviving by copy conserves volumes and contents of the living compartments", "statement": "The volumes returned by run add up to the total volume of the compartments that are alive at the end, the volume-weighted component totals equal those of the living compartments, every living compartment keeps its composition, every dead one gets the composition of a living one. (The docstring's stronger claim that it conserves the quantities across all compartments is false when a dead compartment has non-zero volume.)", "quantifier": "every volume vector, every target matrix, every threshold >= 0, every random stream", "why_tests_cant": "depends on random choices and on how many compartments died", "anchors": ["flory/mcmp/_finder_impl.py:revive_compartments_by_copy", "flory/mcmp/finder.py:CoexistingPhasesFinder.run"]}
{"id": "C08", "title": "Reviving by copy always succeeds", "statement": "With the default kill_threshold = 0 and at least one living compartment, the copy-revival loop terminates for every random stream and all returned volumes are > 0; for a positive threshold it succeeds if the living volume exceeds 2*threshold*(num_part-1); it reads no living-list entry out of range. (Without such a condition it can exhaust the donors and fail.)", "quantifier": "every volume vector, threshold, random stream", "why_tests_cant": "termination for all random streams", "anchors": ["flory/mcmp/_finder_impl.py:revive_compartments_by_copy"]}
{"id": "C09", "title": "Volume change per step is bounded", "statement": "The documentation promises that the maximum change of a compartment volume per step does not exceed Js_step_upper_bound. True of the mixing increment; after renormalisation the change of a living compartment is at most twice the bound when volumes were normalised before the step (the documented constant itself is violated by a concrete state).", "quantifier": "every state with normalised volumes, every parameter setting with positive bound and acceptance", "why_tests_cant": "worst case over all states", "anchors": ["flory/mcmp/_finder_impl.py:multicomponent_self_consistent_metastep", "flory/mcmp/finder.py:CoexistingPhasesFinder.__init__"]}
{"id": "C10", "title": "Damping acts on volumes and fields simultaneously", "statement": "In each step the applied change of every field is factor*acceptance_omega*(residual) and the applied mixing change of every volume is factor*acceptance_Js*(residual) with one common factor in (0,1], and the factor is 1 exactly when the intended maximal volume change does not exceed Js_step_upper_bound.", "quantifier": "every state and parameter setting", "why_tests_cant": "relation between all entries for all states", "anchors": ["flory/mcmp/_finder_impl.py:multicomponent_self_consistent_metastep"]}
{"id": "C11", "title": "Reported errors bound the chemical-potential imbalance", "statement": "For a Flory-Huggins mixture (any molecule sizes > 0) in the canonical ensemble: if the incompressibility, field and volume errors reported by a step are below tol, then for every component the chemical potentials (as computed by FreeEnergyBase.chemical_potentials from the returned fractions) in any two living compartments differ by less than an explicit multiple of tol.", "quantifier": "every number of components and compartments, every chi, sizes > 0, phi_means > 0, every state, every tolerance", "why_tests_cant": "it is a theorem about all mixtures and all states; tests check three examples numerically", "anchors": ["flory/mcmp/_finder_impl.py:multicomponent_self_consistent_metastep", "flory/free_energy/base.py:FreeEnergyBase.chemical_potentials", "flory/mcmp/finder.py:CoexistingPhasesFinder.run"]}
{"id": "C12", "title": "Zero residuals mean coexistence, and coexistence is stationary", "statement": "If a step reports zero incompressibility, field and volume errors then all living compartments have equal chemical potentials and pressures and unit total fraction, and the step leaves all fields and all (normalised) volumes of the living compartments unchanged.", "quantifier": "every mixture, every state", "why_tests_cant": "fixed points of a nonlinear map for all parameters", "anchors": ["flory/mcmp/_finder_impl.py:multicomponent_self_consistent_metastep"]}
{"id": "C13", "title": "Reported field error is the maximum absolute field error", "statement": "The second reported error is documented as Max absolute conjugate field error. It is only the maximum of the signed residuals and 0 (refuted as stated); nevertheless residuals are bounded below by -((num_feat-1)*err + |coef|*incompressibility error), so small reported errors do bound the absolute field error.", "quantifier": "every interaction/entropy/ensemble/constraints, every state", "why_tests_cant": "needs an algebraic identity over all features", "anchors": ["flory/mcmp/_finder_impl.py:multicomponent_self_consistent_metastep"]}
{"id": "C14", "title": "Convergence is sound", "statement": "If run() stops because of convergence then the four errors in diagnostics are all below the tolerance, the number of living compartments did not change in the last step, and every final internal volume is either > kill_threshold or exactly 0; if it does not, the full step schedule has been carried out. An undefined convergence criterion raises ValueError.", "quantifier": "every configuration and every history", "why_tests_cant": "control flow for all outcomes of the numerical kernel", "anchors": ["flory/mcmp/finder.py:CoexistingPhasesFinder.run"]}
{"id": "C15", "title": "Step schedule", "statement": "For a positive integer interval and max_steps > 0, run() performs at most ceil(max_steps) iteration steps, checks convergence at least every `interval` steps, and without convergence performs more than ceil(max_steps) - ceil(max_steps/interval) steps; diagnostics['steps'] is the number of steps performed. max_steps = 0 raises ZeroDivisionError. For a fractional interval < 1 more than max_steps steps may be done.", "quantifier": "every max_steps (real) and interval", "why_tests_cant": "integer arithmetic over all inputs", "anchors": ["flory/mcmp/finder.py:CoexistingPhasesFinder.run"]}
{"id": "C16", "title": "The checking interval does not influence the trajectory", "statement": "The fields, volumes, fractions, constraint multipliers, random-generator position and remaining revive budget after k steps depend only on k and the initial state, not on how the k steps are split into metasteps (interval). Splitting the k steps into several consecutive run() calls also changes nothing as long as no compartment is dead at the end of a run; with a dead compartment the final copy revival of run() draws random numbers, so the generator position differs.", "quantifier": "every split of every number of steps, every state", "why_tests_cant": "unbounded number of splits and states", "anchors": ["flory/mcmp/_finder_impl.py:multicomponent_self_consistent_metastep", "flory/mcmp/finder.py:CoexistingPhasesFinder.run"]}
{"id": "C17", "title": "Well-formed result", "statement": "run() returns exactly num_part phases of num_comp components each; with kill_threshold = 0 all volumes are > 0; all fractions are >= 0 (> 0 for phi_means > 0); after convergence the volumes sum to the number of living compartments and every returned phase has total fraction within tolerance of one.", "quantifier": "every mixture, every history, every random stream", "why_tests_cant": "universal over histories and streams", "anchors": ["flory/mcmp/finder.py:CoexistingPhasesFinder.run", "flory/mcmp/_finder_impl.py:revive_compartments_by_copy"]}
{"id": "C18", "title": "Mean composition of the returned phases", "statement": "Phases returned by run() in the canonical ensemble have mean_fractions within an explicit bound (proportional to Js_step_upper_bound) of phi_means after convergence; equality does not hold in general because volumes are updated after the fractions were computed.", "quantifier": "every mixture and every converged state", "why_tests_cant": "worst-case bound over all states", "anchors": ["flory/mcmp/finder.py:CoexistingPhasesFinder.run", "flory/common/phases.py:Phases.mean_fractions"]}
{"id": "C19", "title": "additional_chis_shift only affects the numerics", "statement": "Changing additional_chis_shift changes neither the set of states with zero residuals nor the fractions, potentials or volume derivatives computed from a state; it only changes the trajectory while the incompressibility error is non-zero.", "quantifier": "every mixture, every two shifts, every state", "why_tests_cant": "all states, all shifts", "anchors": ["flory/interaction/flory_huggins.py:FloryHugginsInteractionBase._compiled_impl", "flory/interaction/flory_huggins.py:FloryHugginsInteractionCompiled.incomp_coef"]}
{"id": "C20", "title": "No randomness is used while nothing dies", "statement": "As long as no compartment volume falls to kill_threshold or below, runs consume no random numbers and the resulting state and phases are the same for every random generator.", "quantifier": "every pair of random streams, every number of steps", "why_tests_cant": "universal over streams", "anchors": ["flory/mcmp/_finder_impl.py:multicomponent_self_consistent_metastep", "flory/mcmp/_finder_impl.py:revive_compartments_by_copy"]}
{"id": "C21", "title": "Incompatible instances are always rejected", "statement": "Constructing a finder or calling set_interaction / set_entropy / set_ensemble / set_constraints with an instance whose compiled number of components (resp. features) differs from the finder's raises ComponentNumberError (resp. FeatureNumberError), and compatible ones are accepted.", "quantifier": "every instance and every finder", "why_tests_cant": "all size combinations", "anchors": ["flory/mcmp/finder.py:CoexistingPhasesFinder.check_instance", "flory/mcmp/finder.py:CoexistingPhasesFinder.set_interaction"]}
{"id": "C22", "title": "A rejected update leaves the finder unchanged", "statement": "If reinitialize_from_omegas or reinitialize_from_phis raises because of a wrong shape the finder is unchanged. The analogous statement for set_interaction/set_entropy/set_ensemble/set_constraints is false: the incompatible instance is already stored when the exception is raised. When a constraint in the middle of a list cannot be compiled, exactly the constraints before it remain stored.", "quantifier": "every finder state and every argument", "why_tests_cant": "exception safety over all states", "anchors": ["flory/mcmp/finder.py:CoexistingPhasesFinder.reinitialize_from_omegas", "flory/mcmp/finder.py:CoexistingPhasesFinder.set_interaction"]}
{"id": "C23", "title": "set_constraints installs exactly the given constraints", "statement": "set_constraints(cs) with no individual arguments installs one compiled constraint per given constraint in order, an empty or missing argument installs the neutral constraint, multipliers are reset. With a kwargs_individual shorter than the constraints the extra constraints are silently dropped (refuted).", "quantifier": "every constraint list, every kwargs", "why_tests_cant": "all lists", "anchors": ["flory/mcmp/finder.py:CoexistingPhasesFinder.set_constraints"]}
{"id": "C24", "title": "Keyword arguments: filtering and precedence", "statement": "compiled(**kw) passes exactly the accepted keyword arguments and ignores the rest; in set_* explicit kwargs override the constructor's, individual ones override both, and the stored defaults never change over any sequence of calls.", "quantifier": "every keyword dictionary, every sequence of set_* calls", "why_tests_cant": "all dictionaries, all histories", "anchors": ["flory/common/utilities.py:filter_kwargs", "flory/mcmp/finder.py:CoexistingPhasesFinder.set_constraints"]}
{"id": "C25", "title": "Reinitialisation forgets the history", "statement": "After reinitialize_from_omegas/phis/random the volumes are all one, the revive budget is full, the constraint multipliers are zero and the fields are exactly the given ones (chi times the given fractions; the fresh draws), independently of everything that happened before, so two finders with the same configuration run identically afterwards.", "quantifier": "every history before the call", "why_tests_cant": "universal over histories", "anchors": ["flory/mcmp/finder.py:CoexistingPhasesFinder.reinitialize_random", "flory/mcmp/finder.py:CoexistingPhasesFinder.reinitialize_from_omegas", "flory/mcmp/finder.py:CoexistingPhasesFinder.reinitialize_from_phis"]}
{"id": "C26", "title": "Phases validates its shape", "statement": "Phases(volumes, fractions) succeeds exactly if volumes is one-dimensional, fractions two-dimensional and their first dimensions agree, otherwise ValueError; an existing object satisfies this after any sequence of normalize/sort/get_clusters.", "quantifier": "every pair of arrays, every operation sequence", "why_tests_cant": "all shapes and all sequences", "anchors": ["flory/common/phases.py:Phases.__init__"]}
{"id": "C27", "title": "normalize", "statement": "normalize() of phases with non-zero total volume yields total volume one, unchanged fractions, unchanged mean_fractions, unchanged volume ratios, and is idempotent.", "quantifier": "every Phases object with non-zero total volume", "why_tests_cant": "all inputs", "anchors": ["flory/common/phases.py:Phases.normalize"]}
{"id": "C28", "title": "sort", "statement": "sort() returns the same phases (volume together with composition) reordered such that the index of the most concentrated component is non-decreasing (ties by the next most concentrated...), phases with equal enrichment order keep their relative order, total volume and mean fractions are unchanged, and sort is idempotent.", "quantifier": "every Phases object and every admissible argsort tie-breaking", "why_tests_cant": "all inputs, all permutations", "anchors": ["flory/common/phases.py:Phases.sort"]}
{"id": "C29", "title": "Clustering conserves matter", "statement": "For every partition the hierarchical clustering may return, get_clusters() conserves total volume and mean_fractions, yields one phase per distinct label, each cluster volume is the sum of its members' volumes and each cluster composition lies component-wise between the minimum and maximum of its members and keeps sum-to-one; it never fails when all volumes are positive. Single-phase objects are returned unchanged.", "quantifier": "every Phases object, every labelling", "why_tests_cant": "all labelings", "anchors": ["flory/common/phases.py:Phases.get_clusters"]}
{"id": "C30", "title": "get_clusters returns sorted phases", "statement": "The docstring says the clusters are sorted by the index of the most concentrated component. False: there is an input for which the output is not sorted.", "quantifier": "every Phases object", "why_tests_cant": "an existential counterexample refutes it; a passing test cannot establish it", "anchors": ["flory/common/phases.py:Phases.get_clusters"]}
{"id": "C31", "title": "PhasesResult keeps its information", "statement": "normalize, sort and get_clusters of a PhasesResult return a PhasesResult with equal info; of a plain Phases a plain Phases; writing into the info of a normalize/sort copy never alters the original.", "quantifier": "every object, every sequence of operations", "why_tests_cant": "all sequences", "anchors": ["flory/common/phases.py:PhasesResult._copy", "flory/common/phases.py:PhasesResult.from_phases"]}
{"id": "C32", "title": "Random compositions lie on the simplex", "statement": "get_uniform_random_composition(n) for n >= 1 returns n non-negative numbers with sum exactly one for every outcome of the beta draws.", "quantifier": "every n >= 1, every random outcome", "why_tests_cant": "random", "anchors": ["flory/common/phases.py:get_uniform_random_composition"]}
{"id": "C33", "title": "Block expansion", "statement": "make_square_blocks(arr, sizes) has sum(sizes) rows and columns and entry (i,j) equals arr[r,s] where i lies in block r and j in block s; it preserves symmetry; a non-square array or wrong number of blocks raises ValueError.", "quantifier": "every matrix, every block size vector (zeros included)", "why_tests_cant": "all sizes", "anchors": ["flory/common/utilities.py:make_square_blocks"]}
{"id": "C34", "title": "Broadcasting of parameters", "statement": "A scalar or length-one parameter is used for every entry and an exact-shape parameter entry by entry. For an n x n matrix, a length-n vector or a 1 x n matrix is used as every row and an n x 1 matrix as every column. Any other shape raises ValueError. The stored array is a fresh copy. A linear constraint object has one constraint per row of a two-dimensional Cs, one for a scalar or vector; Ts is spread over them; more dimensions raise ValueError.", "quantifier": "every input and target shape", "why_tests_cant": "all shapes", "anchors": ["flory/common/utilities.py:convert_and_broadcast", "flory/interaction/flory_huggins.py:FloryHugginsInteractionBase.__init__"]}
{"id": "C35", "title": "The interaction matrix is always symmetric", "statement": "After construction and after any sequence of chis assignments, set_uniform_chis and set_random_chis, chis is symmetric; a symmetric input is stored unchanged; with vanishing_diagonal the diagonal is zero.", "quantifier": "every sequence of operations, every argument, every random stream", "why_tests_cant": "all histories", "anchors": ["flory/interaction/flory_huggins.py:FloryHugginsInteraction"]}
{"id": "C36", "title": "set_random_chis uses the drawn values", "statement": "After set_random_chis the upper triangle contains exactly the drawn normal numbers. False after set_uniform_chis with an integer chi: the matrix then has integer type and the draws are truncated.", "quantifier": "every history before the call", "why_tests_cant": "depends on the dtype left by an earlier call", "anchors": ["flory/interaction/flory_huggins.py:FloryHugginsInteraction.set_random_chis", "flory/interaction/flory_huggins.py:FloryHugginsInteraction.set_uniform_chis"]}
{"id": "C37", "title": "chis_feat of block interactions can be reassigned", "statement": "Assigning chis_feat updates both the feature matrix and the component matrix consistently, and an asymmetric matrix is symmetrised with a warning. Both are false: the setter and the asymmetric constructor path raise AttributeError.", "quantifier": "every block interaction and every matrix", "why_tests_cant": "universal failure", "anchors": ["flory/interaction/flory_huggins_block.py:FloryHugginsBlockInteraction.chis_feat", "flory/interaction/flory_huggins_block.py:FloryHugginsBlockInteraction.__init__"]}
{"id": "C38", "title": "Feature description is exact for block interactions", "statement": "For a block interaction the component-based energy and Jacobian of any composition equal the feature-based energy and potential of the feature fractions (sums over the block's components).", "quantifier": "every block structure, chi, composition", "why_tests_cant": "all block structures", "anchors": ["flory/interaction/flory_huggins_block.py:FloryHugginsBlockInteraction", "flory/interaction/flory_huggins.py:FloryHugginsInteractionCompiled"]}
{"id": "C39", "title": "Polydispersed component-to-feature map", "statement": "comp_to_feat sums exactly the components of each feature when every feature has at least one component; total fraction is conserved; with one component per feature it coincides with the plain entropy. With a zero count the map is wrong (refuted).", "quantifier": "every num_comp_per_feat with entries >= 1, every fractions array", "why_tests_cant": "all block structures", "anchors": ["flory/entropy/ideal_gas_polydispersed.py:IdealGasPolydispersedEntropyCompiled.comp_to_feat", "flory/entropy/ideal_gas_polydispersed.py:IdealGasPolydispersedEntropyCompiled.partition"]}
{"id": "C40", "title": "Polydispersed and full descriptions agree on coexistence", "statement": "A state (fields per feature, volumes) has zero residuals for block interaction + polydispersed entropy iff the expanded state (each component carries its feature's field) has zero residuals for the full Flory-Huggins + ideal-gas system with the block-expanded chi, and the component fractions agree.", "quantifier": "every block structure, chi, sizes, phi_means, state", "why_tests_cant": "all systems and states", "anchors": ["flory/entropy/ideal_gas_polydispersed.py:IdealGasPolydispersedEntropyCompiled", "flory/interaction/flory_huggins_block.py:FloryHugginsBlockInteraction"]}
{"id": "C41", "title": "Free energy density", "statement": "free_energy_density equals sum phi_i ln(phi_i)/l_i + 1/2 sum chi_ij phi_i phi_j for every non-negative composition, with the convention 0 ln 0 = 0, is finite there and continuous up to the boundary; a wrong number of components or a negative fraction raises VolumeFractionError.", "quantifier": "every composition, chi, sizes > 0", "why_tests_cant": "continuum of inputs, limits at the boundary", "anchors": ["flory/free_energy/base.py:FreeEnergyBase.free_energy_density", "flory/common/math.py:xlogx", "flory/free_energy/base.py:FreeEnergyBase.check_volume_fractions"]}
{"id": "C42", "title": "The Jacobian is the gradient", "statement": "jacobian(phis) is the vector of partial derivatives of free_energy_density at every strictly positive composition.", "quantifier": "every composition with positive entries, every chi (symmetrised), sizes != 0", "why_tests_cant": "derivative at every point", "anchors": ["flory/free_energy/base.py:FreeEnergyBase.jacobian", "flory/interaction/flory_huggins.py:FloryHugginsInteractionBase._jacobian_impl", "flory/entropy/ideal_gas.py:IdealGasEntropyBase._jacobian_impl"]}
{"id": "C43", "title": "The conserved Jacobian is the constrained gradient", "statement": "jacobian(phis, index) lists, for all components except index in order, the derivative of the free energy when that component grows at the expense of component index; out-of-range index raises.", "quantifier": "every composition, every index (negative Python indices included)", "why_tests_cant": "derivative at every point", "anchors": ["flory/free_energy/base.py:FreeEnergyBase.jacobian"]}
{"id": "C44", "title": "The Hessian is the derivative of the Jacobian", "statement": "hessian(phis) is the matrix of second derivatives of free_energy_density. True when all sizes are one; false for other sizes because the entropic diagonal is size/phi instead of 1/(size*phi).", "quantifier": "every composition, chi, sizes", "why_tests_cant": "derivative at every point, all sizes", "anchors": ["flory/entropy/ideal_gas.py:IdealGasEntropyBase._hessian_impl", "flory/free_energy/base.py:FreeEnergyBase.hessian"]}
{"id": "C45", "title": "Reduced Hessian", "statement": "hessian(phis) is symmetric; hessian(phis, index) is symmetric, has one row and column less, and its quadratic form equals the full Hessian's quadratic form on volume-conserving perturbations (dependent component balances the others).", "quantifier": "every composition, chi, sizes, index", "why_tests_cant": "all dimensions", "anchors": ["flory/free_energy/base.py:FreeEnergyBase.hessian"]}
{"id": "C46", "title": "Chemical potential relations", "statement": "exchange_chemical_potentials(., s) are differences of chemical_potentials, vanish for s, equal the conserved Jacobian elsewhere; pressure(., s) = -chemical_potentials[s]; for unit total fraction sum phi_i mu_i = f and pressure(s) = sum phi_i exch_i - f.", "quantifier": "every composition with positive entries, every solvent index", "why_tests_cant": "identities for all inputs", "anchors": ["flory/free_energy/base.py:FreeEnergyBase.chemical_potentials", "flory/free_energy/base.py:FreeEnergyBase.exchange_chemical_potentials", "flory/free_energy/base.py:FreeEnergyBase.pressure"]}
{"id": "C47", "title": "Stability test", "statement": "is_stable(phis) is True iff no volume-conserving perturbation lowers the second-order free energy, and the answer does not depend on which component is eliminated. True for unit sizes; wrong for other sizes through the Hessian (a concrete unstable mixture is reported stable).", "quantifier": "every composition, chi; all sizes for the refutation", "why_tests_cant": "all perturbations", "anchors": ["flory/free_energy/base.py:FreeEnergyBase.is_stable", "flory/free_energy/base.py:FreeEnergyBase.num_unstable_modes"]}
{"id": "C48", "title": "Equilibration error", "statement": "For strictly positive compositions equilibration_error (2-norm by phase) is zero for all phases iff all phases have the same chemical potentials; it is zero for a single phase. With vanishing fractions it can be zero for phases that are not balanced (infinite potentials are replaced by 0).", "quantifier": "every list of compositions", "why_tests_cant": "all inputs", "anchors": ["flory/free_energy/base.py:FreeEnergyBase.equilibration_error"]}
{"id": "C49", "title": "Local constraints", "statement": "The potential and volume derivative used for LinearLocalConstraint are the partial derivatives of the documented augmented Lagrangian, and a reported constraint residue below tol means |sum_r C_ar phi_r - T_a| < tol in every living compartment for every constraint.", "quantifier": "every C, T, multiplier, elasticity, state", "why_tests_cant": "derivatives and maxima over all inputs", "anchors": ["flory/constraint/linear_local.py:LinearLocalConstraintCompiled.prepare", "flory/constraint/linear_local.py:LinearLocalConstraintCompiled.evolve"]}
{"id": "C50", "title": "Global constraints", "statement": "The potential and volume derivative used for LinearGlobalConstraint are the partial derivatives of the documented augmented Lagrangian, and a reported residue below tol means |sum_r C_ar mean(phi_r) - T_a| < tol for every constraint.", "quantifier": "every C, T, multiplier, elasticity, state", "why_tests_cant": "derivatives and maxima over all inputs", "anchors": ["flory/constraint/linear_global.py:LinearGlobalConstraintCompiled.prepare", "flory/constraint/linear_global.py:LinearGlobalConstraintCompiled.evolve"]}
{"id": "C51", "title": "Constraint multipliers are stationary exactly when the constraint holds", "statement": "evolve leaves the Lagrange multipliers unchanged iff the residues vanish (positive step and acceptance ratio), otherwise moves each multiplier in the direction of its residue; dead compartments get multiplier 0; NoConstraint never influences anything.", "quantifier": "every state", "why_tests_cant": "all states", "anchors": ["flory/constraint/linear_local.py:LinearLocalConstraintCompiled.evolve", "flory/constraint/linear_global.py:LinearGlobalConstraintCompiled.evolve", "flory/constraint/no.py:NoConstraintCompiled"]}
{"id": "C52", "title": "Constrained equilibrium", "statement": "With constraints, zero reported errors imply that the chemical potentials shifted by the constraint potentials are balanced between all living compartments and the constraints hold exactly.", "quantifier": "every mixture, every constraint list, every state", "why_tests_cant": "all states", "anchors": ["flory/mcmp/_finder_impl.py:multicomponent_self_consistent_metastep"]}
{"id": "C53", "title": "Grand canonical fractions", "statement": "With a GrandCanonicalEnsemble the fraction of component i in a living compartment is scaled_activity_i times its Boltzmann factor, independent of the volumes; from_chemical_potential uses l_i exp(l_i mu_i); the exchange chemical potentials of converged phases equal the requested mu differences when all sizes are equal. For unequal sizes they differ by a fixed composition-independent offset (refuted as stated).", "quantifier": "every mixture and every state", "why_tests_cant": "all states", "anchors": ["flory/ensemble/grandcanonical.py:GrandCanonicalEnsemble.from_chemical_potential", "flory/ensemble/grandcanonical.py:GrandCanonicalEnsembleCompiled.normalize"]}
{"id": "C54", "title": "Canonical and grand-canonical solutions coincide", "statement": "Every zero-residual state of a canonical system is a zero-residual state of the grand-canonical system with the activities phi_mean_i/Q_i and yields the same fractions.", "quantifier": "every mixture and state", "why_tests_cant": "all states", "anchors": ["flory/ensemble/canonical.py", "flory/ensemble/grandcanonical.py"]}
{"id": "C55", "title": "The finder owns its data", "statement": "After a finder has been created (or set_* called), no assignment or in-place modification of the user's interaction, entropy, ensemble or constraint objects changes the finder. True for Flory-Huggins interactions, ideal-gas entropies and canonical ensembles; false for in-place modification of GrandCanonicalEnsemble.scaled_activity, constraint Cs/Ts and block chis_feat, which are shared.", "quantifier": "every sequence of user modifications", "why_tests_cant": "aliasing over histories", "anchors": ["flory/mcmp/finder.py", "flory/ensemble/grandcanonical.py:GrandCanonicalEnsemble._compiled_impl", "flory/constraint/linear_local.py:LinearLocalConstraint._compiled_impl", "flory/interaction/flory_huggins_block.py:FloryHugginsBlockInteraction._compiled_impl"]}
{"id": "C56", "title": "find_coexisting_phases pipeline", "statement": "find_coexisting_phases returns phases with positive volumes that sum to one, whose mean_fractions equal those of the raw run result, sorted by most concentrated component, with info equal to the finder's diagnostics.", "quantifier": "every mixture, every clustering outcome, every random stream", "why_tests_cant": "composition of randomised and external stages", "anchors": ["flory/shortcut.py:find_coexisting_phases"]}
{"id": "C57", "title": "Compartment labels do not matter", "statement": "Permuting the compartments of a state before a step (without revival) gives the permuted result and the same reported errors.", "quantifier": "every permutation, every state", "why_tests_cant": "all permutations", "anchors": ["flory/mcmp/_finder_impl.py:multicomponent_self_consistent_metastep"]}
{"id": "C58", "title": "Component labels do not matter", "statement": "Relabelling the components of a Flory-Huggins mixture (chi, sizes, phi_means, fields) gives the relabelled result of a step and the same reported errors; likewise for free energy, Jacobian and chemical potentials.", "quantifier": "every permutation, every mixture, every state", "why_tests_cant": "all permutations", "anchors": ["flory/mcmp/_finder_impl.py:multicomponent_self_consistent_metastep", "flory/free_energy/base.py"]}
{"id": "C59", "title": "The iteration solves the documented equations", "statement": "Let E be the extended free energy of the documentation, evaluated at the relative volumes of the living compartments, the fields and the feature fractions of a step. The step's multiplier exists such that: every field derivative of E vanishes; the derivative in a fraction is volume times the field residual, along which the fields then move; the derivative in the multiplier is volume times the incompressibility; the derivative in a volume is the local energy plus the field residuals weighted by the fractions, so it is exactly the local energy once the fields are stationary. The reported errors are the maxima of these residuals, all three vanish exactly at the stationary points of E, and at an incompressible canonical state E is the mean Flory-Huggins energy up to a constant of the mean fractions.", "quantifier": "every Flory-Huggins mixture with either ideal entropy and either ensemble, every state and step without active constraints", "why_tests_cant": "derivatives at every state", "anchors": ["flory/mcmp/_finder_impl.py:multicomponent_self_consistent_metastep", "docs/source/theory.rst"]}
{"id": "C60", "title": "Living test in floating point", "statement": "In binary64 arithmetic the multiplicative masks, the counting function and the test for dead compartments agree on which compartments are living (J - threshold rounds to a positive number iff J > threshold, also when it is subnormal or overflows), so no compartment is both counted and masked out and the masks add up to the count. Only a NaN volume is neither counted, nor dead, nor masked out.", "quantifier": "every pair of finite doubles", "why_tests_cant": "2^128 pairs", "anchors": ["flory/mcmp/_finder_impl.py:count_valid_compartments", "flory/mcmp/_finder_impl.py:make_valid_compartment_masks"]}
{"id": "C61", "title": "Step schedule in floating point", "statement": "For integers 0 < max_steps < 2^53 and 0 < interval < 2^1000 the floating-point expression ceil(max_steps/interval) equals the exact integer ceiling, so the number of metasteps and the number of steps per metastep are exact. The bounds are needed: for max_steps = 2^53 + 1 and interval 1 one step is lost, and for an interval of 2^1100 the quotient underflows and run divides by zero.", "quantifier": "every pair of integers in range", "why_tests_cant": "2^100 pairs", "anchors": ["flory/mcmp/finder.py:CoexistingPhasesFinder.run"]}
{"id": "C62", "title": "Reported errors do not depend on the step sizes", "statement": "The reported errors (incompressibility, fields, volumes, constraint residue), the volume fractions and the number of living compartments of a step depend only on the state before the step and on the mixture, not on acceptance_Js, acceptance_omega or Js_step_upper_bound; in particular a one-step run on the same state with other acceptances gives the same diagnostics, so a small acceptance can never make a state look converged.", "quantifier": "every mixture, ensemble, state, pair of acceptance settings and built-in constraint list", "why_tests_cant": "a test compares two settings on a few states", "anchors": ["flory/mcmp/_finder_impl.py:multicomponent_self_consistent_metastep", "flory/mcmp/finder.py:CoexistingPhasesFinder.run"]}
{"id": "C63", "title": "Identical compartments stay identical", "statement": "Two compartments that start with the same fields (for instance equal columns handed to reinitialize_from_omegas) have the same fields, volumes and compositions after any number of steps, unless compartments are revived.", "quantifier": "every mixture, ensemble, constraint list, number of steps", "why_tests_cant": "all trajectories of any length", "anchors": ["flory/mcmp/finder.py:CoexistingPhasesFinder.reinitialize_from_omegas", "flory/mcmp/_finder_impl.py:multicomponent_self_consistent_metastep"]}
{"id": "C64", "title": "A homogeneous start never demixes", "statement": "With a canonical ensemble, if all compartments start with the same fields and volume one (for instance after reinitialize_from_phis with equal columns) then every compartment has composition phi_means and volume one after every step, whatever the interaction: the fields approach their limit geometrically with ratio 1 - acceptance_omega, all errors eventually fall below any tolerance, and run reports the homogeneous state as converged even when it is unstable.", "quantifier": "every mixture, phi_means, number of compartments, start field, number of steps", "why_tests_cant": "all trajectories; a single unstable example could be rescued by rounding noise", "anchors": ["flory/mcmp/finder.py:CoexistingPhasesFinder.run", "flory/mcmp/finder.py:CoexistingPhasesFinder.reinitialize_from_phis", "flory/mcmp/_finder_impl.py:multicomponent_self_consistent_metastep"]}
{"id": "C65", "title": "Mixtures that do not attract themselves never demix", "statement": "If the interaction energy has no negative curvature along exchanges of material, then all living compartments of a state without residuals have the same composition, which is phi_means in a canonical ensemble. If all reported errors of a run are at most tol <= 1, the compositions of any two returned phases differ by at most an explicit constant times tol (in the squared norm weighted by 1/size), so clusters that differ by more cannot be reported.", "quantifier": "every such mixture, sizes, ensemble, number of compartments, start, number of steps", "why_tests_cant": "absence of demixing over all starts and all convex mixtures; the bound is an inequality over the reals", "anchors": ["flory/mcmp/finder.py:CoexistingPhasesFinder.run", "flory/mcmp/_finder_impl.py:multicomponent_self_consistent_metastep", "flory/interaction/flory_huggins.py:FloryHugginsInteractionCompiled"]}
{"id": "C66", "title": "Returned phases share a common tangent plane", "statement": "At a state without residuals the energies and jacobians reported by the free energy object satisfy the common tangent plane condition between any two living compartments. After a run whose errors are at most tol, the distance of the energy of one phase from the tangent plane of another is at most an explicit constant times tol, and for a canonical ensemble without residuals the volume-weighted mean energy of the phases is the sum of the common chemical potentials times phi_means.", "quantifier": "every mixture, ensemble, number of compartments, number of steps", "why_tests_cant": "quantifies over all states and mixtures and relates two independent parts of the package", "anchors": ["flory/mcmp/finder.py:CoexistingPhasesFinder.run", "flory/free_energy/base.py:FreeEnergyBase.jacobian", "flory/free_energy/base.py:FreeEnergyBase.free_energy_density"]}
{"id": "C67", "title": "Only exchange interactions matter", "statement": "Adding a_r + a_s to every entry chi_rs of the interaction (with the activities of a grand canonical ensemble adapted) changes the energy of a composition of unit total only by a linear term, and a solver step from an incompressible state whose fields are offset by a_r gives the same fractions, volumes and errors while the fields keep their offset; in particular coexisting phases are found as stationary states in every such description.", "quantifier": "every mixture, vector a, ensemble, state of unit total fractions", "why_tests_cant": "an invariance under a continuous family of changes of the input", "anchors": ["flory/interaction/flory_huggins.py:FloryHugginsInteractionCompiled", "flory/mcmp/_finder_impl.py:multicomponent_self_consistent_metastep"]}
{"id": "C68", "title": "The reference volume is arbitrary", "statement": "Multiplying all sizes by a factor s while dividing chi (and the additional shift) by s describes the same system: energies and jacobians are divided by s, and, with fields divided by s and acceptance_Js multiplied by s, any number of solver steps including revivals gives identical fractions, volumes, revival counts, random draws and incompressibility error; the field and volume errors are divided by s.", "quantifier": "every mixture, factor, ensemble, start, revival budget, number of steps", "why_tests_cant": "an invariance under a continuous family of changes of the input along all trajectories", "anchors": ["flory/mcmp/_finder_impl.py:multicomponent_self_consistent_metastep", "flory/entropy/ideal_gas.py:IdealGasEntropyCompiled", "flory/free_energy/base.py:FreeEnergyBase"]}
{"id": "C69", "title": "A Flory-Huggins free energy stays consistent through its setters", "statement": "However a FloryHuggins object is created (matrix, number, from_uniform, from_random_normal) and whatever sequence of assignments to chis and sizes and of calls of set_chis_uniform and set_random_chis follows, its energy density, jacobian and independent entries are those of the last assigned symmetric matrix and the last assigned sizes; the independent entries are the upper triangle of the matrix row by row and, with the sizes, determine the energy density.", "quantifier": "every creation, every finite sequence of valid assignments and calls, every composition", "why_tests_cant": "all sequences of operations; equality of functions on all compositions", "anchors": ["flory/free_energy/flory_huggins.py:FloryHuggins", "flory/interaction/flory_huggins.py:FloryHugginsInteraction", "flory/entropy/ideal_gas.py:IdealGasEntropy"]}
{"id": "C70", "title": "The finder does not share its state", "statement": "Results of run are snapshots: no later call on the finder changes them, and changing them does not affect the finder. Arrays passed to reinitialize_from_omegas and reinitialize_from_phis are copied. As long as the user does not write into the array currently returned by the (documented read-only) omegas property, the finder depends only on the sequence of method calls. A reinitialisation detaches the array returned by omegas before, which keeps its contents; all other calls keep the live array. The read-only claim itself is not enforced: the array is the live one.", "quantifier": "every finder, every interleaving of method calls, array creations and writes into reachable arrays", "why_tests_cant": "sharing shows only in particular interleavings of writes and calls", "anchors": ["flory/mcmp/finder.py:CoexistingPhasesFinder.omegas", "flory/mcmp/finder.py:CoexistingPhasesFinder.run", "flory/mcmp/finder.py:CoexistingPhasesFinder.reinitialize_from_omegas"]}
{"id": "C71", "title": "Inconsistent mean fractions are never reported as converged", "statement": "In the canonical ensemble phi_means that do not add up to one are accepted by the constructors, but the reported max_abs_incomp is then at least |sum(phi_means) - 1| after every step and every run, so a run whose tolerance does not exceed this defect performs all scheduled steps instead of stopping as converged.", "quantifier": "every interaction, both built-in entropies, every constraint list, every phi_means, start, kill threshold >= 0, generator, revive budget and schedule", "why_tests_cant": "a lower bound on a reported error over all trajectories; a test sees single runs", "anchors": ["flory/mcmp/_finder_impl.py", "flory/ensemble/canonical.py", "flory/mcmp/finder.py"]}
{"id": "C72", "title": "Global constraints in the canonical ensemble are all or nothing", "statement": "In the canonical ensemble the mean feature fractions of the living compartments are fixed by phi_means, so the residue of a LinearGlobalConstraint equals its violation by phi_means at every step. If the target is incompatible with phi_means, max_constraint_residue is at least the violation and the run never converges below it; if it is compatible and the constraint starts with the zero multipliers set by initialize, adding it at any position of the constraint list leaves phases, diagnostics, fields, volumes, revivals and random draws of every run exactly unchanged.", "quantifier": "every interaction, both built-in entropies, other constraints arbitrary, every phi_means, every coefficient matrix and target, every start, budget, generator and schedule", "why_tests_cant": "comparing whole runs of two configurations for all inputs; tests can only compare single pairs up to tolerances", "anchors": ["flory/constraint/linear_global.py", "flory/ensemble/canonical.py", "flory/mcmp/_finder_impl.py"]}
{"id": "C73", "title": "Tolerance and step limit act monotonically", "statement": "From the same finder, with the same max_steps and interval, a run with a stricter tolerance never stops after fewer steps than one with a looser tolerance. A run that converged before its step limit returns the same phases and leaves the same finder for every larger limit that keeps the instants of the convergence checks, in particular when both limits are multiples of the interval. For other limits the checks move and the converged result may change.", "quantifier": "every finder, pair of tolerances, pair of limits, interval, generator", "why_tests_cant": "relates two runs for all inputs", "anchors": ["flory/mcmp/finder.py"]}
{"id": "C74", "title": "Splitting a component into indistinguishable parts changes nothing", "statement": "If components are split (or merged) into parts of the same feature and molecule size whose phi_means (activities) add up to the original ones, for instance a plain ideal gas entropy replaced by a polydispersed one with several equal components per feature, then the run started from the same fields, volumes and generator takes the same course: same volumes, fields, diagnostics, revivals and random draws. In every phase the fractions of the parts add up to the fraction of the original component and are in the proportion of their phi_means. Parts with zero phi_means may be added or removed.", "quantifier": "every interaction, constraint list, both built-in entropies on either side, canonical and grand canonical ensemble, every start, threshold, budget, generator and schedule", "why_tests_cant": "relates whole runs of two differently shaped configurations for all inputs", "anchors": ["flory/entropy/ideal_gas.py", "flory/entropy/ideal_gas_polydispersed.py", "flory/mcmp/_finder_impl.py"]}
{"id": "C75", "title": "Which arrays Phases objects share", "statement": "Phases and its methods never modify an existing array or object, and no sequence of method calls and element assignments makes an object inconsistent (volumes 1D, fractions 2D, equal first dimension). The results of sort, and of get_clusters on two or more phases, are independent of the source: later assignments into the arrays of either do not change the other. normalize has its own volumes but shares the fractions with its source, so assigning into them changes both; the constructor and from_phases share both given arrays; get_clusters on fewer than two phases returns the object itself. A chain of methods shares an array with its start exactly if no operation in it makes a new one.", "quantifier": "every store of arrays and objects, every sequence of constructor and method calls and element assignments", "why_tests_cant": "aliasing shows only in particular interleavings of calls and writes", "anchors": ["flory/common/phases.py:Phases", "flory/common/phases.py:PhasesResult.from_phases"]}
{"id": "C76", "title": "Finders interact only through a shared generator", "statement": "In a program with several finders and generators the state of a finder depends only on the sequence of calls on it, as long as no other finder or user code draws from its generator in between; in particular this holds for every finder constructed without rng. Of the methods only run (after a compartment died) and reinitialize_random draw. Finders given the same generator do influence each other. Two finders constructed with equal arguments and without rng within the same second are seeded identically and stay in the same state under equal calls, so they are not independent samples.", "quantifier": "every program of constructor calls, method calls and uses of generators, any number of finders, every generator", "why_tests_cant": "quantifies over interleavings of calls on several objects; the seed collision depends on the wall clock", "anchors": ["flory/mcmp/finder.py:CoexistingPhasesFinder.__init__", "flory/mcmp/finder.py:CoexistingPhasesFinder.reinitialize_random", "flory/mcmp/finder.py:CoexistingPhasesFinder.run"]}
{"id": "C77", "title": "The equilibration error bounds the imbalance for positive orders only", "statement": "equilibration_error(phis, order, axis) with axis 0 or 1 and order None, inf or any positive number, or axis=None and order None, inf, 1 or 2: if no returned error exceeds eps, the finite chemical potentials of every component in any two phases differ by at most 2 eps. For positive compositions the errors of these orders, and of order 0 with axis 0 or 1, all vanish exactly if the phases have equal chemical potentials. Negative orders do not measure balance: a single balanced component makes every error by phase zero, and order -2 with axis=None is zero whenever there are at most as many phases as components. With axis=None any other number raises ValueError.", "quantifier": "every free energy, every composition array, every order and axis, every real power", "why_tests_cant": "quantifies over all real orders and all compositions; a test compares a few values", "anchors": ["flory/free_energy/base.py:FreeEnergyBase.equilibration_error"]}
{"id": "C78", "title": "The compiled loops of a polydispersed entropy stay within their arrays", "statement": "IdealGasPolydispersedEntropy accepts integer counts broadcastable to num_feat with a non-negative sum and sizes broadcastable to that sum; then num_comp is the sum of num_comp_per_feat and stays equal to the length of sizes under any assignments to sizes. Float counts raise TypeError. The compiled partition then accesses only existing components exactly if no count is negative, and comp_to_feat exactly if every count is at least one; in that case the loops compute the documented values. Counts such as [3, -1] are accepted although the compiled code, which does not check bounds, then accesses a missing component. num_comp is an ordinary attribute: assigning it separates sizes from the counts.", "quantifier": "every number of features, every count and size array, every sequence of assignments, all arguments of the compiled methods", "why_tests_cant": "an access outside an array in compiled code is not detected, so a test can pass in spite of it", "anchors": ["flory/entropy/ideal_gas_polydispersed.py:IdealGasPolydispersedEntropy.__init__", "flory/entropy/ideal_gas_polydispersed.py:IdealGasPolydispersedEntropyCompiled.partition", "flory/entropy/ideal_gas_polydispersed.py:IdealGasPolydispersedEntropyCompiled.comp_to_feat"]}
{"id": "C79", "title": "Ensemble objects accept what they document and warn about inconsistent means", "statement": "Ensembles require num_comp >= 1 and a scalar, a length-one or a length-num_comp array, otherwise ValueError. Without phi_means all components get 1/num_comp, which add up to one. CanonicalEnsemble warns exactly if the sum of phi_means differs from one by more than 1e-5 + 1e-8; a finder with tolerance at most 1e-5 performs all its steps, never stopping as converged, for means that were warned about. Between 1e-5 and 1e-5 + 1e-8 there are means without a warning that can never converge at the default tolerance. from_chemical_potential stores l_i exp(l_i mu_i), from which mu_i can be recovered for positive sizes.", "quantifier": "every num_comp, every array shape and content, every run", "why_tests_cant": "quantifies over all inputs and all runs; the gap has width 1e-8", "anchors": ["flory/ensemble/base.py:EnsembleBase.__init__", "flory/ensemble/canonical.py:CanonicalEnsemble.phi_means", "flory/ensemble/grandcanonical.py:GrandCanonicalEnsemble.from_chemical_potential"]}
{"id": "C80", "title": "Stability verdicts and demixing with finite amplitude", "statement": "If is_stable(phis) is False and all sizes are at least one, then for every eps there are two phases within eps of phis that together contain the material of phis and have a lower mean free_energy_density. If all eigenvalues of hessian(phis, 0) are positive and all sizes are at most one, then no arrangement of phases within some eps of phis has a lower mean free_energy_density, and only phis itself has the same. False outside these cases: a blend with sizes above one and positive eigenvalues, and a mixture on the spinodal (eigenvalue zero), are reported stable although phases arbitrarily close to them have a lower mean energy.", "quantifier": "every mixture, number of components, composition; every number and arrangement of phases; conserved or not", "why_tests_cant": "all perturbations of finite size and all arrangements of phases; logarithms cannot be checked by enumeration", "anchors": ["flory/free_energy/base.py:FreeEnergyBase.is_stable", "flory/free_energy/base.py:FreeEnergyBase.num_unstable_modes", "flory/free_energy/base.py:FreeEnergyBase.free_energy_density"]}
{"id": "C81", "title": "Components of which nothing is present", "statement": "A component with phi_means zero (canonical) or activity zero (grand canonical) has volume fraction zero in every returned phase. When a step reports zero errors, deleting such a component from chis, sizes and the ensemble parameters leaves a mixture whose step from the remaining fields also reports zero errors and returns the same fractions. Conversely such a component can be added to every converged mixture: some field for it makes the larger mixture converged with the same fractions. False in general: the absent component is not inert during the iteration. Its field has to converge as well, so a state that is converged without the component need not be converged with it, although all fractions agree.", "quantifier": "every number of components and compartments, every chi matrix, sizes, shifts and acceptances; every state", "why_tests_cant": "equality of fixed points for all mixtures and states; unit tests only compare selected runs to a tolerance", "anchors": ["flory/mcmp/finder.py:CoexistingPhasesFinder.run", "flory/ensemble/canonical.py:CanonicalEnsembleCompiled.normalize", "flory/ensemble/grandcanonical.py:GrandCanonicalEnsembleCompiled.normalize", "flory/mcmp/_finder_impl.py:multicomponent_self_consistent_metastep"]}
{"id": "C82", "title": "Copies of compartments", "statement": "The number of compartments as such does not matter. Take two finders of the same mixture with the same parameters where every compartment of the first occurs d times in the second (same fields, same volumes, e.g. columns repeated in reinitialize_from_omegas). As long as no revival takes place, every step reports the same errors and keeps the fields, volumes and fractions of the copies equal to those of the original, or both raise the same exception; run returns after the same number of steps with the same diagnostics and each returned phase of the second is the corresponding phase of the first. This covers dead compartments, both ensembles, both entropies and local constraints. A LinearGlobalConstraint behaves the same only if its elasticity is divided by d: the elastic term acts on the residue summed over all compartments. With an unchanged nonzero elasticity the claim is false.", "quantifier": "every number of compartments and copies, every order of the copies, every mixture, state and number of steps", "why_tests_cant": "two infinite families of systems are compared; tests run one number of compartments", "anchors": ["flory/mcmp/finder.py:CoexistingPhasesFinder.run", "flory/mcmp/_finder_impl.py:multicomponent_self_consistent_metastep", "flory/constraint/linear_global.py:LinearGlobalConstraintCompiled.prepare"]}
{"id": "C83", "title": "NaN and infinities cannot hide in a converged result", "statement": "In binary64 arithmetic: when run stops because its convergence test holds, every returned volume fraction is a finite number, all fields and volumes entering the last step were finite, and each compartment alive in the last step has a volume above kill_threshold. More generally a finite max_abs_incomp in the diagnostics means that all returned fractions are finite, and a finite max_abs_js_diff implies a finite max_abs_incomp. Conversely one NaN among the fields or volumes at the start of run never disappears, whatever revivals take place: unless an exception is raised the run uses its whole budget, never counts as converged, reports max_abs_js_diff = NaN, and returns NaN volumes and, after at least two steps, only NaN fractions. The field error is no such witness: max_abs_omega_diff is 0.0 in that case, because the builtin max(0, nan) is 0.", "quantifier": "every mixture, ensemble, interaction, constraint, parameter set, random generator, state of NaN, infinite and finite numbers, number of steps", "why_tests_cant": "needs all combinations of special values in every array over unbounded runs; a test sees a few and relies on the platform's exp", "anchors": ["flory/mcmp/finder.py:CoexistingPhasesFinder.run", "flory/mcmp/_finder_impl.py:multicomponent_self_consistent_metastep", "flory/mcmp/_finder_impl.py:revive_compartments_by_random", "flory/mcmp/_finder_impl.py:revive_compartments_by_copy", "flory/ensemble/canonical.py:CanonicalEnsembleCompiled.normalize", "flory/entropy/ideal_gas.py:IdealGasEntropyCompiled.partition"]}
{"id": "C84", "title": "Every method of the finder changes what it names and nothing else", "statement": "Each public method of CoexistingPhasesFinder, whether it returns or raises, leaves alone every part it is not named after: set_interaction, set_entropy, set_ensemble and set_constraints never touch each other's part, the fields, the volumes, the fractions, the generator or the diagnostics; reinitialisations never touch interaction, entropy, ensemble and the classes of the constraints; run replaces none of the parts; parameters, stored keyword arguments and sizes never change. A call with reset refills the revive budget exactly when it succeeds. The constructor uses 8 compartments per component when num_part is missing or 0, starts with unit volumes, a full budget, the first num_feat*num_part normal draws of the generator as fields, empty diagnostics, and constraints compiled with its keyword arguments.", "quantifier": "every finder state, every call with every argument, every outcome", "why_tests_cant": "a frame property over all states and all calls; a test checks a few attributes after a few calls", "anchors": ["flory/mcmp/finder.py:CoexistingPhasesFinder.__init__", "flory/mcmp/finder.py:CoexistingPhasesFinder.set_interaction", "flory/mcmp/finder.py:CoexistingPhasesFinder.set_entropy", "flory/mcmp/finder.py:CoexistingPhasesFinder.set_ensemble", "flory/mcmp/finder.py:CoexistingPhasesFinder.set_constraints", "flory/mcmp/finder.py:CoexistingPhasesFinder.reset_revive"]}
{"id": "C85", "title": "Conservation laws and reported errors hold in double precision up to a stated rounding error", "statement": "In binary64 arithmetic: in every returned phase the fractions are non-negative and add up to one within the reported incompressibility error (if it is at most 1) plus num_comp*2^-50. After every step the volumes add up to the number of living compartments up to a rounding error proportional to 2^-51, and filling dead compartments by copying does not change the total volume at all. In the canonical ensemble the fractions of a step averaged with the volumes that entered it reproduce the prescribed means with relative error at most (num_part+2)*2^-51, as long as Boltzmann factors lie in [2^-300, 2^300].", "quantifier": "all sizes up to the stated limits, all interactions, constraints and exp implementations, all states and runs", "why_tests_cant": "rounding errors are bounded for every input, a test sees a few inputs and a tolerance chosen by hand", "anchors": ["flory/mcmp/_finder_impl.py:multicomponent_self_consistent_metastep", "flory/mcmp/_finder_impl.py:revive_compartments_by_copy", "flory/ensemble/canonical.py:CanonicalEnsembleCompiled", "flory/entropy/ideal_gas.py:IdealGasEntropyCompiled.partition", "flory/mcmp/finder.py:CoexistingPhasesFinder.run"]}
{"id": "C86", "title": "An abandoned run leaves a usable finder", "statement": "If run() is left early (keyboard interrupt between or right after metasteps, or while the results are assembled), the fields, volumes and fractions kept by the finder are those after a whole number of metasteps of that run; means, parameters and parts are unchanged and the diagnostics still describe the previous run. Calling run() again continues as if there had been no interruption: with the same total number of steps, state, budget, phases and errors agree with the uninterrupted run. At least one compartment stays alive and with the default kill_threshold of 0, the standard convergence criterion and positive max_steps and interval the next run succeeds. If the compiled kernel itself raises, the fields are those after the completed steps and the volumes are masked; budget and diagnostics are those after the last completed metastep. One exception is documented: revivals of a metastep whose interrupt arrives directly after the kernel are not charged to the budget.", "quantifier": "all finders with any history, all stopping places, all schedules, all generators", "why_tests_cant": "interrupts arrive at arbitrary moments and cannot be enumerated by tests", "anchors": ["flory/mcmp/finder.py:CoexistingPhasesFinder.run", "flory/mcmp/_finder_impl.py:multicomponent_self_consistent_metastep"]}
{"id": "C87", "title": "The progress bars show the number of reached digits and are full after convergence", "statement": "With a tolerance in (0, 1], every bar of run(progress=True) lies between 0 and its total -log10(tolerance), is at most 100, never gets shorter when the error gets smaller and, where it is not clipped, differs from -log10(error) by at most 0.05. The bars labelled Incompressibility, Field Error, Volume Error and Constraint Residue show the errors of these names. If the tolerance is 10^-n with n <= 100, a run that stops by convergence leaves all four bars full. A full bar means that the error is below 1.13 times the tolerance; it does not mean convergence (an error of 1.1e-5 fills the bar of the default tolerance 1e-5).", "quantifier": "all errors, tolerances, finders and runs", "why_tests_cant": "needs all values of the error, including those in the half tenth above the tolerance", "anchors": ["flory/mcmp/finder.py:CoexistingPhasesFinder.run"]}
{"id": "C88", "title": "No component can be enriched in a phase beyond what chi and its size allow", "statement": "With Flory-Huggins interaction, either built-in entropy, either ensemble and no active constraint, the fractions of component i in any two returned phases differ at most by the factor exp(l_i * D), where D = 2*(max chi - min chi) plus terms that vanish with the reported max_abs_incomp and max_abs_omega_diff; the volume error does not enter. In the canonical ensemble every fraction lies between phi_means_i * exp(-l_i * D) and phi_means_i * exp(l_i * D), so no phase lacks a component that is present in the mixture, and at vanishing errors a chi matrix of equal entries gives the mean composition in every phase.", "quantifier": "every mixture, number of components and compartments, state and run with reported incompressibility error below one", "why_tests_cant": "a bound over all interaction matrices, sizes and converged states; an example only shows one ratio", "anchors": ["flory/mcmp/finder.py:CoexistingPhasesFinder.run", "flory/mcmp/_finder_impl.py:multicomponent_self_consistent_metastep", "flory/interaction/flory_huggins.py:FloryHugginsInteractionCompiled", "flory/entropy/ideal_gas.py:IdealGasEntropyCompiled", "flory/ensemble/canonical.py:CanonicalEnsembleCompiled"]}
{"id": "C89", "title": "Arrays of compositions may have any number of dimensions; the equilibration error singles out the first axis", "statement": "For an array of volume fractions of any shape whose last axis has num_comp entries, every entry of free_energy_density, jacobian, hessian, chemical_potentials, exchange_chemical_potentials, pressure, num_unstable_modes and is_stable is the result of the same method for that composition alone, and the leading axes of the result are those of the input (a single composition gives chemical_potentials and pressure a leading axis of length one). A scalar raises IndexError, a wrong last axis or a negative entry VolumeFractionError, an index outside the components IndexError. equilibration_error takes the first axis as the phases: axis=0 is the error by component of every slice c[:, s], axis=None adds the squares of the errors of the slices and raises ValueError for any other order once there are more than two dimensions. With more than two dimensions axis=1 does not give the error by phase, and with a first axis of length one every error is zero although the phases on the other axes are not balanced.", "quantifier": "every free energy of the package, shape, index, order and array of fractions", "why_tests_cant": "broadcasting rules for every number of dimensions and every length of the axes, including lengths 0 and 1; tests fix one shape", "anchors": ["flory/free_energy/base.py:FreeEnergyBase", "flory/interaction/flory_huggins.py:FloryHugginsInteractionBase", "flory/entropy/ideal_gas.py:IdealGasEntropyBase"]}
{"id": "C90", "title": "Differences between the fields of the features relax towards the differences of their potentials and stay bounded", "statement": "In every living compartment one step replaces the difference between the fields omega of two features by a weighted mean of itself and the difference between their interaction (and constraint) potentials at the fractions of the step; the weight is damping factor times acceptance_omega, the same for all compartments and pairs, and neither the incompressibility nor chis_shift enters. Hence with acceptance_omega between 0 and 1, without revivals and constraints, no difference ever exceeds the larger of its starting bound and D*(1+E), D being the largest difference within a column of chis and E the largest reported incompressibility. If all rows of chis are equal, as for an ideal mixture, any number of steps multiplies all differences by one number between (1-acceptance_omega)^n and 1, strictly below 1 once a step is taken.", "quantifier": "first part: every interaction, entropy, ensemble, constraints and state; rest: the built-in mixtures and ensembles, all parameters, states and numbers of steps", "why_tests_cant": "boundedness over unbounded iteration of a damped nonlinear map; a test sees finitely many steps of few mixtures", "anchors": ["flory/mcmp/_finder_impl.py:multicomponent_self_consistent_metastep", "flory/mcmp/finder.py:CoexistingPhasesFinder.run"]}
{"id": "C91", "title": "Phase diagram of binary mixtures", "statement": "For two components (sizes l0, l1; repulsion X = 2*chi01 - chi00 - chi11) a state whose step reports zero errors never has more than two different compositions in its living compartments. It has one if X <= (1/sqrt(l0) + 1/sqrt(l1))^2. Two coexisting compositions depend on sizes and interactions only: not on ensemble, mean composition, chis_shift, numerical parameters, or number, volumes and state of the compartments. They are globally stable: no composition lies below the plane given by the common chemical potentials, and with the canonical ensemble no arrangement of the same material has a lower mean free energy. Beyond the critical X there is a gap (a, b): canonical states with phi_means inside it can demix into a and b (volumes by the lever rule, fields given), states with phi_means outside it are homogeneous.", "quantifier": "all sizes, interactions, ensembles, parameters, states, numbers of compartments; ideal gas and polydispersed entropy; idle constraints", "why_tests_cant": "a claim about all parameters and all fixed points, including non-existence of other ones; a test finds one fixed point for one parameter set", "anchors": ["flory/mcmp/_finder_impl.py:multicomponent_self_consistent_metastep", "flory/mcmp/finder.py:CoexistingPhasesFinder.run", "flory/free_energy/flory_huggins.py:FloryHuggins"]}
{"id": "C92", "title": "Small reported errors mean that the returned phases are close to an exact solution", "statement": "For given components, interactions (with their chis_shift), sizes and phi_means (canonical ensemble) and every e > 0 there is tol > 0 such that whenever run() returns with all reported errors at most tol, any two returned phases are within e of compositions that coexist exactly (positive, sum one, equal chemical potentials). tol does not depend on the state, the numerical parameters or the number of compartments. If also mean_fractions is within tol of phi_means (which holds after a run stopped by its tolerance from a state of mean volume one), all phases and their relative volumes are within e of one exact equilibrium of that mean composition, where tol depends on the number of compartments. If no two different compositions coexist, every phase is within e of phi_means. For two components every phase is within e of phi_means, or the phases are within e of the two compositions of the phase diagram, with volumes by the lever rule; the latter only beyond the critical repulsion. With the grand canonical ensemble the phases are within e of coexisting compositions that have exactly the requested differences of chemical potentials.", "quantifier": "all admissible parameters, states, numbers of compartments, schedules; ideal gas and polydispersed entropy; idle constraints", "why_tests_cant": "a small residual says that the equations almost hold; that the result is close to a solution, uniformly over all states and runs, cannot be sampled", "anchors": ["flory/mcmp/finder.py:CoexistingPhasesFinder.run", "flory/mcmp/_finder_impl.py:multicomponent_self_consistent_metastep", "flory/common/phases.py:Phases.mean_fractions"]}
{"id": "C93", "title": "An equilibrium of lowest free energy exists, is a fixed point of the solver, and is the only one that matters", "statement": "For every canonical mixture (one or several components per feature) and every positive phi_means of sum one there is an equilibrium of at most as many phases as components whose mean free energy (that of FloryHuggins.free_energy_density) is least among all divisions into any number of phases with any compositions. Every finder with at least as many compartments and kill_threshold below the volumes has a state that represents it: a step from there reports zero errors, computes exactly these compositions and changes nothing that matters; run() from such a state, with no revivals left or all compartments in use, returns exactly these compositions, with volumes that sum to those of the phases. A state that a step leaves with zero errors has least mean free energy exactly if no composition has a free energy below the plane given by its chemical potentials. Any two such states, in finders with any numbers of compartments and any parameters, have the same mean free energy and the same chemical potentials.", "quantifier": "all admissible parameters, numbers of components, compartments; ideal gas and polydispersed entropy; idle constraints", "why_tests_cant": "a minimum over all divisions of space into any number of phases cannot be enumerated; tests know the minimum only for a few mixtures", "anchors": ["flory/mcmp/_finder_impl.py:multicomponent_self_consistent_metastep", "flory/mcmp/finder.py:CoexistingPhasesFinder.run", "flory/free_energy/base.py:FreeEnergyBase.free_energy_density"]}
{"id": "C94", "title": "Which mixtures can demix", "statement": "Call a mixture mixable if for all changes d of the composition with sum zero, sum chi_ij d_i d_j + (sum |d_i|/sqrt(size_i))^2 >= 0. In a mixable mixture every state that a step leaves with zero errors has equal compositions in all compartments that count, whatever the ensemble and the entropy; with the canonical ensemble they equal phi_means, and run() returns phases as close to phi_means as we please if the reported errors are small enough. In a mixture that is not mixable there is a phi_means for which, in every finder with at least as many compartments as components, the state of least free energy has two different phases and is a fixed point with zero errors. The homogeneous state is of least free energy for every phi_means exactly in mixable mixtures. For two components mixable means repulsion at most the critical one of C91; for any number of components of one size with one interaction chi it means chi*size <= 2.", "quantifier": "all numbers of components, interactions, sizes, ensembles, states and runs; ideal gas and polydispersed entropy", "why_tests_cant": "quantifies over all mixtures, mean compositions and states", "anchors": ["flory/mcmp/_finder_impl.py:multicomponent_self_consistent_metastep", "flory/mcmp/finder.py:CoexistingPhasesFinder.run", "flory/interaction/flory_huggins.py:FloryHugginsInteractionCompiled", "flory/entropy/ideal_gas.py:IdealGasEntropyCompiled.partition"]}
{"id": "C95", "title": "The iteration converges to the homogeneous state when interactions are weak", "statement": "For canonical mixtures with positive phi_means of sum one, no effective constraints and a positive additional_chis_shift: let X bound the differences within the columns of chi, V the initial fields, T = sum phi_means_i size_i exp(size_i (12 V + 6 X)) and c the sum of the shifted chi matrix. If 6 X T < 1 and acceptance_omega * c / num_features * T <= 1 then, whatever the volumes, the number of compartments, acceptance_Js, Js_step_upper_bound and kill_threshold < 1, once no revivals are left all four errors tend to zero and all compartments that live on approach phi_means. run() with kill_threshold 0 and no revivals left ends with all errors below the tolerance whenever the largest number of steps exceeds a number n0 that does not depend on the schedule, at most n0 + interval steps after its start, and the phases of a run that took n0 steps are within eps of phi_means. Without interactions only the step size matters: for every V there is an acceptance_omega below which this holds. If moreover all compartments start with volume 1 and acceptance_Js is at most a certain multiple of acceptance_omega, no compartment ever dies, no revival is ever attempted however many are allowed, and the errors decay geometrically from the first step.", "quantifier": "all numbers of components, features and compartments, sizes, fields, volumes, schedules and tolerances that meet the stated inequalities; both entropies", "why_tests_cant": "tests observe that some runs end; they cannot show that an iteration converges from every state of a region", "anchors": ["flory/mcmp/_finder_impl.py:multicomponent_self_consistent_metastep", "flory/mcmp/finder.py:CoexistingPhasesFinder.run", "flory/interaction/flory_huggins.py:FloryHugginsInteractionCompiled.incomp_coef"]}
{"id": "C96", "title": "A step in double precision follows the step in exact arithmetic", "statement": "For the parts of the package (Flory-Huggins interaction, ideal gas and polydispersed ideal gas, canonical and grand canonical ensemble, local and global linear constraints, NoConstraint): if the step in exact arithmetic from the given fields, volumes and multipliers raises no error and its fractions are bounded, the step computed in binary64 from the same numbers raises no error either, sees the same living compartments, and its new fields, volumes, multipliers of constraints, fractions of components and features and its four errors differ from the exact ones by at most an explicit number of units in the last place times an explicit scale. The number of units depends on the numbers of components, features, compartments and constraints and on the accuracy of np.exp, not on the state; the scale grows with bounds on the fields, the volumes, the matrix chi, the constraint matrices and the multipliers. np.exp may be wrong by a stated number of units, and the products computed by BLAS may be summed in any order whose error has the usual bound.", "quantifier": "all parameters, fields, volumes and multipliers within stated (wide) bounds; all implementations of exp and of dot products within a stated accuracy", "why_tests_cant": "tests compare results of double precision arithmetic with each other or with rounded reference values; they cannot bound the distance from exact arithmetic over all inputs", "anchors": ["flory/mcmp/_finder_impl.py:multicomponent_self_consistent_metastep", "flory/interaction/flory_huggins.py:FloryHugginsInteractionCompiled", "flory/entropy/ideal_gas.py:IdealGasEntropyCompiled", "flory/entropy/ideal_gas_polydispersed.py", "flory/constraint/linear_local.py", "flory/constraint/linear_global.py", "flory/constraint/no.py"]}
{"id": "C97", "title": "Revival in double precision does what revival in exact arithmetic does", "statement": "For finite volumes and fields in binary64 and a generator that returns the same numbers: the copying at the end of run() rounds nothing if kill_threshold is a normal number or the volumes of the donors are not tiny (also for kill_threshold 0); every compartment ends up with a finite volume above the threshold and the fractions of a compartment that was alive, and volumes and contents of each living compartment are conserved exactly, as sums of real numbers. It cannot fail while the living volumes exceed 2*kill_threshold*(num_part-1), and otherwise only for want of donors. Random revival revives exactly the compartments whose volume is at most the threshold, uses the same draws, gives them volume one and the fields of exact arithmetic up to ten units in the last place of the largest possible value, and touches nothing else. A run in double precision uses at most revive_tries + num_part - 1 revivals, none if nothing is left, and draws no random number before the final copying unless it revives a compartment.", "quantifier": "all numbers of compartments and features, finite volumes and fields, thresholds, scalers and generators within stated bounds", "why_tests_cant": "tests run a few seeds and compare sums with a tolerance; they cannot show that nothing is lost to rounding in any order of donors", "anchors": ["flory/mcmp/_finder_impl.py:revive_compartments_by_copy", "flory/mcmp/_finder_impl.py:revive_compartments_by_random", "flory/mcmp/finder.py:CoexistingPhasesFinder.run"]}
{"id": "C98", "title": "Which parameter arrays accept assignment of single entries", "statement": "The arrays chis, chis_feat, sizes, scaled_activity, Cs and Ts accept arr[i] = x, however the object was made and whatever was assigned before: the entry is changed and nothing else. The array phi_means of a canonical ensemble raises ValueError and stays as it is. An integer array (sizes given as integers, chis from an integer set_uniform_chis) keeps integers and truncates everything else towards zero without an error, so a size of 0.5 becomes 0.", "quantifier": "all stores, objects, shapes, types and sequences of assignments to attributes and entries", "why_tests_cant": "whether an array is a writeable copy or a read-only view depends on how it was assigned last; tests assign whole arrays", "anchors": ["flory/ensemble/canonical.py:CanonicalEnsemble.phi_means", "flory/ensemble/grandcanonical.py:GrandCanonicalEnsemble.scaled_activity", "flory/entropy/ideal_gas.py:IdealGasEntropy.sizes", "flory/constraint/linear_local.py:LinearLocalConstraint.Ts", "flory/interaction/flory_huggins.py:FloryHugginsInteraction.chis"]}
{"id": "C99", "title": "Compositions with absent components", "statement": "For a composition with vanishing fractions and positive sizes free_energy_density is finite. jacobian and chemical_potentials are minus infinity for absent components, which is the limit for vanishing fraction, and finite for present ones, where they are the derivative of the energy. An absent component can be left out: the energy and the values of all others are those of the mixture without it. Relative to an absent component exchange_chemical_potentials and the conserved jacobian are plus infinity for present components and nan for absent ones, the component itself included (not zero), pressure is plus infinity, and the conserved hessian is infinite everywhere; the full hessian is infinite only on the diagonal of absent components. Eigenvalues that are nan or plus infinity count as stable in num_unstable_modes and is_stable.", "quantifier": "all numbers of components, symmetric matrices, positive sizes and nonnegative compositions; any eigenvalue solver", "why_tests_cant": "tests use interior compositions; on the boundary numpy only warns", "anchors": ["flory/free_energy/base.py:FreeEnergyBase.jacobian", "flory/free_energy/base.py:FreeEnergyBase.hessian", "flory/free_energy/base.py:FreeEnergyBase.chemical_potentials", "flory/free_energy/base.py:FreeEnergyBase.exchange_chemical_potentials", "flory/free_energy/base.py:FreeEnergyBase.pressure", "flory/free_energy/base.py:FreeEnergyBase.is_stable"]}
{"id": "C100", "title": "num_comp_per_feat means the same in the block interaction and in the polydispersed entropy", "statement": "FloryHugginsBlockInteraction accepts an integer, one integer in an array, or num_feat integers, none negative; other shapes and negative counts raise ValueError, floats TypeError. num_comp is the sum of the counts, and components are numbered feature by feature. IdealGasPolydispersedEntropy accepts the same counts, and both objects then agree on num_comp, on the counts and on the feature of every component: row i of chis is that of the feature whose field determines the fractions of component i. The entropy also accepts negative counts with non-negative sum, the interaction does not (refuted: same errors).", "quantifier": "all counts of any shape and type, all square feature matrices, sizes, fields and volumes", "why_tests_cant": "the two classes expand the counts by different code (np.repeat and nested loops); tests use one example with equal counts", "anchors": ["flory/interaction/flory_huggins_block.py:FloryHugginsBlockInteraction.__init__", "flory/entropy/ideal_gas_polydispersed.py:IdealGasPolydispersedEntropy.__init__", "flory/common/utilities.py:make_square_blocks"]}
{"id": "C101", "title": "In double precision, runs of weakly interacting mixtures converge to the mixed state without revival", "statement": "The run is computed in binary64 arithmetic with a Flory-Huggins interaction (plain or block), ideal gas entropy, canonical ensemble and no constraints that act (only NoConstraint). All volumes start at one, fields are at most V0, chi differs little between rows, and the acceptances are small (explicit inequalities, `weak64`). The rounding errors of N steps fit into explicit margins (`budget64`). Then during N steps no number overflows or becomes nan, no compartment dies, none is revived and no random number is drawn. After step n all four reported errors, and the distance of every fraction from the mean fraction, are at most a constant times shrink^n plus explicit multiples of 2^-53, with shrink < 1. If this bound falls below the tolerance at a batch boundary within N steps, run returns at or before that batch, reports convergence, spends no revival attempt, and the returned fractions lie within the bound after the first batch of the mean fractions.", "quantifier": "all chis, sizes, mean fractions, start fields, exponential functions of bounded relative error and summation orders of dot products within the stated inequalities; all tolerances, batch lengths and batch numbers", "why_tests_cant": "tests run one start on one machine; whether rounding errors accumulate over many steps, or stop the errors from falling below the tolerance, depends on inputs and on the order of sums in the library", "anchors": ["flory/mcmp/finder.py:CoexistingPhasesFinder.run", "flory/mcmp/_finder_impl.py:multicomponent_self_consistent_metastep", "flory/constraint/no.py:NoConstraintCompiled"]}
{"id": "C102", "title": "Errors reported in double precision bound the chemical-potential imbalance of the returned fractions", "statement": "The run is computed in binary64 arithmetic with a Flory-Huggins interaction (plain or block), ideal gas entropy, either ensemble and no constraint that acts (only NoConstraint). If fields, volumes and fractions of the last step stay within chosen scales, the errors it reports are finite and the chemical potentials (chemical_potentials of the free energy object, evaluated exactly at the returned fractions) of any two returned compositions with fractions of at least lo differ by at most 2 * volume error + num_features * field error + |sum of shifted chis| * incompressibility error, plus an explicit multiple of 2^-53 that depends on the scales, on lo, on the largest chi and on the smallest size. If the run reports convergence, they differ by less than (2 + num_features + |sum of shifted chis|) * tolerance plus the same rounding term. The fractions of each returned phase sum to one within the reported incompressibility error plus an explicit rounding term. All returned volumes are finite and above the threshold, also when compartments were copied onto dead ones at the end.", "quantifier": "all chis, sizes, means or fugacities, start states, numbers of compartments, tolerances, batch lengths, revival budgets, random draws, exponential functions of bounded relative error and summation orders of dot products", "why_tests_cant": "the reported errors are themselves computed with rounding from rounded fractions, and potentials contain logarithms; tests compare a few results with loose tolerances and cannot tell how much of the balance is lost to rounding", "anchors": ["flory/mcmp/finder.py:CoexistingPhasesFinder.run", "flory/mcmp/_finder_impl.py:multicomponent_self_consistent_metastep", "flory/mcmp/_finder_impl.py:revive_compartments_by_copy", "flory/free_energy/base.py:FreeEnergyBase.chemical_potentials"]}
{"id": "C103", "title": "A mixture that cannot demix is returned as nearly equal phases in double precision", "statement": "The run is computed in binary64 arithmetic as in C102. Suppose the mixture cannot demix: attraction uses up no more than a part theta < 1 of the entropy of mixing, i.e. for all changes y of the composition the quadratic form of chi is at least -theta * sum(y_i^2 / size_i) - kappa * (sum y_i)^2. If numbers of the last step stay within the chosen scales, then for any two returned phases sum((phi_i - psi_i)^2 / size_i) is at most (1+d) * (2*(1+d)*e + 2*d*(M*(1+d)^2 + 2*(1+d)*W) + 4*kappa*d^2) / (1 - theta*(1+d)), where d is the reported incompressibility error and e the imbalance from the reported errors (C102), both plus explicit rounding terms, M the largest |chi| and 1/W the smallest size. If the run reports convergence, d and e can be taken as multiples of the tolerance plus rounding: such a run cannot report two distinct phases. With the canonical ensemble every returned fraction phi_i differs from the prescribed mean by at most the square root of size_i times that bound, plus an explicit rounding term, if all compartments alive in the last step have fractions of at least lo. Weakly interacting mixtures (C101) never leave the scales.", "quantifier": "all chis, sizes, means or fugacities, start states, numbers of compartments, tolerances, batch lengths, revival budgets, random draws, exponential functions of bounded relative error and summation orders of dot products", "why_tests_cant": "whether spurious phases appear depends on the convexity of the free energy and on all rounding errors of the last step; tests look at single mixtures with random initial fields", "anchors": ["flory/mcmp/finder.py:CoexistingPhasesFinder.run", "flory/mcmp/_finder_impl.py:multicomponent_self_consistent_metastep", "flory/mcmp/_finder_impl.py:revive_compartments_by_copy"]}
