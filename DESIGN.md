# Formal model of flory in Rocq (Coq 8.16.1)

Source: `/repo` (qiangyicheng/flory, python), read as text, never executed.
Everything is under `rocq/theories`, logical name `Verif`.

## 1. Approach

* Small total Gallina functions mirror the python functions branch by branch.
  Python exceptions are values: `res A := Ok a | Err exn`. Methods of mutable
  objects return the new object together with the outcome, so the state left
  behind by an exception is visible.
* Numbers are Coq reals `R`. Float rounding, overflow and NaN are outside the
  model, with exceptions. `ModelFloat.v` uses Flocq's binary64 for the two
  rounding-sensitive decisions of C60 and C61. `ModelFloatKernel.v` repeats the
  kernel and the loop of `run` in binary64 for C83, C85 and C96, and
  `ModelFloatParts.v` the parts of the package it calls. The free-energy layer uses
  extended reals (finite, +inf, -inf, NaN) for `log 0`, `1/0`, `0*inf`.
* Arrays of the numeric kernel are functions `nat -> R`, `nat -> nat -> R` with
  explicit sizes; statements only talk about indices below the size. `Phases`
  uses lists. User objects (`ModelObjects.v`) keep their arrays in a store of
  cells with an element type and a writeable flag, so aliasing is visible.
* External code is an arbitrary argument with an explicit contract where one
  is needed. The random generator is an arbitrary deterministic state machine
  (contract `rng_contract`: `uniform` in [-1,1), `integers k` below k). scipy's
  clustering is an arbitrary labelling, numpy's argsort any sorting
  permutation, LAPACK's `eigvalsh` any orthonormal diagonalisation, singular values any
  numbers with their extremal property.
* User-supplied interaction, entropy, ensemble and constraint objects are
  records of functions, so kernel theorems hold for every implementation of the
  interface. The built-in classes are instances.
* Properties are stated with the vocabulary of `Spec.v` and of the public
  interface (results of methods, entries of returned arrays, raised errors).
* A property that the faithful model violates is kept in view: a theorem with
  suffix `_refuted` exhibits the violating input, and the strongest correct
  variant is proved next to it.

## 2. Files

| file | content |
|---|---|
| `Base.v` | finite sums, maxima, `for` loops, results: definitions and lemmas |
| `Spec.v` | vocabulary of the statements, independent of the model |
| `ModelCommon.v` | xlogx, keyword filtering, broadcasting, block expansion |
| `ModelPhases.v` | Phases, PhasesResult, random compositions |
| `ModelParts.v` | compiled interactions, entropies, ensembles, constraints |
| `ModelKernel.v` | masks, counting, both revival routines, one step, metastep |
| `ModelFinder.v` | CoexistingPhasesFinder |
| `ModelHistory.v` | sequences of calls on a finder |
| `ModelFreeEnergy.v` | FreeEnergyBase, high-level interaction and entropy |
| `ModelObjects.v` | mutable user objects, aliasing, element types |
| `ModelShortcut.v` | find_coexisting_phases |
| `ModelFlory.v` | FloryHuggins and its delegation to interaction and entropy |
| `ModelOwnership.v` | arrays shared between a finder and its user |
| `ModelSharing.v` | arrays shared between Phases objects |
| `ModelWorld.v` | several finders and generators in one program |
| `ModelNorm.v` | equilibration error with a norm order |
| `ModelPoly.v` | polydispersed entropy objects, loops with checked indices |
| `ModelMeans.v` | ensemble objects and their warning |
| `ModelFloat.v` | living test and step schedule in binary64 |
| `Examples.v` | data shared by the concrete cases |
| `Proofs*.v` | lemmas |
| `Properties*.v` | the property theorems (header comment: which) |
| `Witness*.v` | concrete cases meeting the hypotheses; counterexamples |
| `ProofsCopies` | a step commutes with repeating compartments |
| `PropertiesCopies, WitnessCopies` | C82 |
| `ModelFloatKernel` | the kernel and the loop of `run` in binary64, operation by operation |
| `ProofsFloatKernel` | finiteness and NaN through the loops of the kernel |
| `PropertiesFloatKernel, WitnessFloatKernel` | C83 |
| `PropertiesSetters, WitnessSetters` | C84, further cases of C23 and C24 |
| `ProofsRounding, PropertiesRounding, WitnessRounding` | C85: rounding error analysis of the binary64 kernel |
| `ModelInterrupt, PropertiesInterrupt, WitnessInterrupt` | C86: states left behind by an abandoned run |
| `ModelProgress, PropertiesProgress, WitnessProgress` | C87: lengths of the progress bars |
| `PropertiesFreeEnergyCode` | C41-C44 for the value returned by `free_energy_density` |
| `PropertiesBroadcast` | C34 for arrays and targets of any number of dimensions |
| `PropertiesPartition, WitnessPartition` | C88: bounds on the enrichment of a component in a phase |
| `ModelArrays` | `free_energy/base.py` on arrays of any dimension, operation by operation |
| `PropertiesArrays, WitnessArrays` | C89 |
| `ModelBlocks, PropertiesBlocks` | C33 for arrays of any number of dimensions |
| `PropertiesRelax, WitnessRelax` | C90 |
| `ProofsBinary, PropertiesBinary, WitnessBinary` | C91 |
| `ProofsCompact` | compactness of boxes, approximate solutions of continuous equations |
| `PropertiesAccuracy, WitnessAccuracy` | C92 |
| `ProofsOptimum` | existence and properties of arrangements of least mean free energy |
| `PropertiesOptimum, PropertiesMixing, WitnessOptimum` | C93, C94 |
| `ProofsContract` | one step contracts the distance between the fields of living compartments |
| `PropertiesContract, WitnessContract` | C95 |
| `ModelFloatParts` | interaction, entropy and the three constraint classes of the package in binary64 |
| `ProofsFloatError` | calculus of absolute errors for sums, products, quotients, maxima and exp in binary64 |
| `PropertiesFloatError, PropertiesFloatParts, WitnessFloatError` | C96 |
| `ProofsFloatRevive` | binary64 revival simulates exact revival |
| `PropertiesFloatRevive, WitnessFloatRevive` | C97 |
| `PropertiesEdit, WitnessEdit` | C98 |
| `PropertiesBoundary, WitnessBoundary` | C99 |
| `PropertiesShortcutArgs` | C56: coefficient and rejected arguments |
| `ModelBlockArgs` | num_comp_per_feat of the block interaction as passed |
| `PropertiesBlockArgs` | C100 |
| `ProofsContractLoose` | the contraction with volumes that drift |
| `PropertiesFloatConverge` | C101 |
| `WitnessFloatConverge` | a concrete run for C101 |
| `PropertiesFloatBalance` | C102 |
| `WitnessFloatBalance` | a concrete run for C102 |
| `PropertiesFloatUniform` | C103 |
| `WitnessFloatUniform` | a concrete run for C103 |

Concrete cases are `Example case_Cxx` or `Cxx_case`, beside the theorem when
they are short and in the `Witness` file of the same name otherwise.

## 3. Plan per property

| id | modelled by | proof |
|---|---|---|
| C01 | step, partition, normalize | sum algebra: Q is the volume-weighted Boltzmann mean |
| C02 | step | sum algebra on the renormalisation lines |
| C03 | step, metastep, run | invariant: sum J = n_valid, dead J = 0, hence some J >= 1 > threshold |
| C04 | step, metastep | invariant over steps |
| C05 | revive_by_random | loop invariant |
| C06 | metastep, run, histories of runs | invariant budget accounting; overshoot witness |
| C07 | revive_by_copy | loop invariant: total and weighted totals conserved |
| C08 | revive_by_copy | pigeonhole on the living volume; donor exhaustion witness |
| C09 | step | triangle inequality; witness for the documented constant |
| C10 | step | unfolding, common factor |
| C11 | step + chemical_potentials | exact identity mu = local energy + constant(i) + field residual |
| C12 | same | corollary + stationarity |
| C13 | step | sum of residuals = coef * incompressibility; witness |
| C14 | run | case analysis of the loop |
| C15 | run | integer arithmetic on ceil and floor division |
| C16 | metastep, run | induction on the step count |
| C17 | run | invariants of C02, C07, C08 |
| C18 | run | bound from the last volume update |
| C19 | FH compiled | incomp_coef is the only place; fixed points have incomp 0 |
| C20 | metastep, run | generator-independence by induction |
| C21-C25 | finder | case analysis; histories by induction on operation lists |
| C26-C31 | Phases | list lemmas, permutations; stable sort |
| C32 | random composition | induction |
| C33, C34 | utilities | list lemmas |
| C35-C37 | interaction objects | induction on operation lists; witnesses |
| C38-C40 | block interaction, polydispersed entropy | prefix-sum block sums |
| C41-C48 | free energy layer | derivatives over R, extended reals at the boundary |
| C49-C52 | constraints | derivatives of the augmented Lagrangian |
| C53, C54 | grand canonical | algebra |
| C55 | heap of arrays | invariant over user operations; witnesses |
| C56 | shortcut | composition of C07, C27-C29 |
| C57, C58 | step | sums are permutation invariant |
| C59 | extended free energy | derivatives |
| C60, C61 | Flocq binary64 | rounding theorems |
| C62 | step, run | residuals do not read the step parameters |
| C63, C64 | step, run | induction with equal columns; geometric decay |
| C65, C66 | step, run, free energy | monotone gradient of the entropy; C11, C12 |
| C67, C68 | step, free energy | two related runs, proportional residuals |
| C69 | FloryHuggins objects | induction on operation lists |
| C70 | memory of arrays around the finder | simulation by ModelHistory; frame invariant |
| C71, C72 | step, run | balance of the mean fractions; simulation of runs (`ProofsSim.v`) |
| C73 | run | first successful check |
| C74 | step, run | lumping of components; revival moves whole columns; simulation of runs |
| C75 | store of arrays and Phases objects | frame invariant; induction on sequences of calls |
| C76 | programs with several finders and generators | projection of interleavings; ownership invariant |
| C77 | equilibration error for every norm order | every entry bounded by the norm; singular values by their defining property |
| C78 | polydispersed entropy objects; bounds of the compiled loops | checked loops fail exactly if the running index passes the end |
| C79 | ensemble objects, warning about means | case analysis on shapes; C71 |
| C80 | `is_stable` against splits of finite amplitude | x ln x between parabolas; completeness of orthonormal bases; mean value theorem |
| C81 | absent components: never returned, same converged states without them, refuted: inert | `rsum_skip` on the values of one step; multiplier = common offset of the fields |
| C82 | copies of compartments change nothing, refuted: elastic global constraints | `copies` (fibres of equal size), each value of a step is constant on fibres; `iterate_copy`, `steps_copy`, `run_loop_copy` |
| C83 | NaN and infinities in a run, finding: the field error hides NaN | binary64 kernel in the order of the code; finite result implies finite operands; NaN absorbs every operation up to the step factor |
| C84 | frame conditions of all methods, constructor | case analysis over `exec`; `steps_class` by induction |
| C85 | rounding errors of one step and of the result | standard model of rounding from Flocq (`RN_plus`, `RN_rel`, `RN_any`), relative errors composed with `within`, sums by induction |
| C86 | abandoned runs | `interrupted`/`kernel_raises` against `fsteps` (`loop_at_spec`, `loop_raises_spec`), continuation by `fsteps_split` |
| C87 | progress bars | monotonicity of `ln`, rounding lemmas of Flocq's `Znearest`, `C14_convergence_sound` |
| C88 | limits of partitioning | fields of two compartments are parallel up to the spread of chi; both compositions add up to one, which bounds the common shift |
| C89 | arrays of any dimension | numpy expressions with broadcasting, entry by entry against the functions of one composition; norm along the axes |
| C90 | relaxation of field differences | one step as a convex combination; induction over the steps without revival |
| C91 | phase diagram of binary mixtures | reduction to double tangents of a function of one fraction; mean value theorem, intermediate value theorem for the least values on both sides |
| C92 | accuracy of results | bounds of the fractions from below (C88), compactness of the box of candidate phases: if the equations hold up to d at points far from every solution for all d, a limit point is a solution |
| C93 | least free energy | least point of the mean energy over arrangements of n+1 phases (compactness), positivity of its fractions, equal potentials by moving material between phases, Caratheodory to reduce to n phases, support plane |
| C94 | which mixtures demix | logarithmic mean inequality and Cauchy for one direction; composition where the curvature is negative for the other; C93 for existence |
| C95 | convergence for weak interactions | the distance between the fields of living compartments shrinks by a factor in every step (mean value theorem for the Boltzmann factors, canonical normalisation); the set of living compartments is eventually constant, after which the step is bounded below |
| C96 | double precision follows exact arithmetic | forward error analysis in a calculus of (scale, units) pairs along the lines of the kernel; the fractions with relative error, everything after with absolute error |
| C97 | revival in double precision | simulation: the copying loop of the binary64 model and that of the exact model visit the same states (comparisons and halving are exact); error calculus of C96 for the drawn fields |
| C98 | in-place assignment of entries of parameter arrays | invariant over all assignments to attributes and entries |
| C99 | absent components in the free-energy methods | case analysis in extended reals; directional derivatives along the face |
| C100 | counts per feature in interaction and entropy | offsets in lists against partial sums; loop specification of the compiled partition |
| C101 | convergence of weakly mixing runs in binary64 | one step of C96 as a perturbation of the exact contraction of C95; geometric sum with residual; fields and volumes bounded along the path |
| C102 | reported binary64 errors bound the imbalance of potentials | C96 transfers the reported errors and the fractions of the last step to exact arithmetic, C11 bounds the exact imbalance, a perturbation lemma for logarithms and quadratic terms carries it back; C97 for the final copies |
| C103 | mixtures that cannot demix are returned as equal phases in binary64 | C102 bounds totals and potentials of the returned fractions; the monotonicity argument of C65 (gap_bound) with part of the entropy left for attraction; the invariant of C101 gives moderate states |

## 4. What is modelled

| source | modelled | left out |
|---|---|---|
| `common/math.py` | all | |
| `common/utilities.py` | `filter_kwargs`, `convert_and_broadcast`, `make_square_blocks` | |
| `common/phases.py` | constructors, properties, normalize, sort, get_clusters, PhasesResult, random compositions | `__str__`; views as arguments, rebinding of `volumes` and `fractions` |
| `interaction/*.py` | compiled classes, constructors, setters, `set_random_chis`, `set_chis_uniform`, class methods, block expansion and `chis_feat`, energy, jacobian, hessian, `independent_entries` | NotImplementedError stubs of the base classes |
| `entropy/*.py` | compiled classes, constructors and setters, energy, jacobian, hessian | overflow of the counts in int32; stubs |
| `ensemble/*.py` | all | stubs; strides of the broadcast view in `phi_means` |
| `constraint/*.py` | three compiled classes, constructor and setters of the linear classes, aliasing of `Cs`, `Ts` | dtype conversion of `Cs`, `Ts`; stubs |
| `free_energy/base.py` | all | |
| `free_energy/flory_huggins.py` | all | |
| `mcmp/_finder_impl.py` | all | |
| `mcmp/finder.py` | constructor, setters, reinitialisation, run, diagnostics, `omegas` | drawing of the progress bars (their lengths are in `ModelProgress.v`), logging, wall-clock time |
| `shortcut.py` | all | |

Simplifications, each repeated at the definition concerned:

* accumulation loops over arrays are finite sums in the order of the indices;
  over `R` the order does not matter;
* `total_Js == 0` raises before the loop over components instead of inside it;
* after an exception inside a metastep `run` of `ModelFinder.v` keeps the arrays
  from before that metastep, whereas numba has partially overwritten them; the
  state really left behind is the relation `kernel_raises` of `ModelInterrupt.v`;
* `kwargs_individual` has the same kind (dict or tuple) as `kwargs`;
* a single finder has an externally supplied generator; the default one, seeded
  with the second of construction, is modelled in `ModelWorld.v`;
* all inputs are finite numbers; an array with NaN or infinite entries is not
  representable except in the free-energy results and in `ModelFloat.v`,
  `ModelFloatKernel.v`;
* compositions handed to the free energy are 1D or 2D in `ModelFreeEnergy.v`;
  `ModelArrays.v` has any number of dimensions (the first axis not of length zero
  in `equilibration_error`);
* arrays given to `reinitialize_from_omegas` and `reinitialize_from_phis` have
  float entries (integer arrays would keep their type);
* a constraint stored by a rejected `set_constraints` has never been
  initialised; its arrays have one column, so that a later `run` with several
  compartments raises inside `evolve`; the model reads zero multipliers;
* components exist: a canonical ensemble, entropy or interaction with zero
  components makes `max` of an empty array raise, which is not modelled.

## 5. Trusted base

* Coq 8.16.1's kernel (also checked with `coqchk` by the gate).
* The axioms listed by `Print Assumptions`. `ASSUMPTIONS.md` has the list per
  theorem (regenerate with `tools/assumptions.py` after a build). Only these
  four occur, all of the standard library:
  `ClassicalDedekindReals.sig_forall_dec`, `ClassicalDedekindReals.sig_not_dec`,
  `FunctionalExtensionality.functional_extensionality_dep`,
  `Classical_Prop.classic`. The first three come with the construction of the
  reals; `classic` enters through Coquelicot, Flocq and lemmas of the standard
  library about reals. Opaque modules of the standard library
  (`Rdefinitions.RbaseSymbolsImpl`, `RinvImpl`, `ssrunder.Under_rel`) are
  reported by `coqchk` because of their sealing; they are not assumptions of
  ours.
* The correspondence between python text and model, by reading. In particular:
  numba semantics as documented (scalar float division by zero raises
  ZeroDivisionError, array division gives inf or nan, compiled code receives the
  values of the arrays it is given, also of read-only views); CPython's
  `int/int` is correctly rounded; `np.random.Generator` methods stay in their
  documented ranges; numpy casting of float to int64 truncates.
* No axioms of our own, no disabled kernel checks, no open obligations.

## 6. Findings

Places where the code and its documentation or the natural expectation differ;
each has a machine-checked witness.

* The ideal-gas Hessian multiplies by the size instead of dividing by it (C44,
  C47).
* `max_abs_omega_diff` is a signed maximum (C13).
* A volume can change by twice the documented bound per step (C09).
* The revive budget can be exceeded by `num_part - 1` (C06).
* `revive_compartments_by_copy` conserves only the contents of living
  compartments, and for positive thresholds donors can run out (C07, C08).
* Returned mean fractions differ from `phi_means` by the last volume update
  (C18).
* `get_clusters` does not sort (C30), and returns the object itself for one
  phase (C31).
* Setters of the finder are not atomic; a short `kwargs_individual` drops
  constraints (C22, C23).
* Block interactions cannot be reassigned; integer matrices truncate; a
  negative `chi_std` erases the matrix before raising (C35-C37).
* An empty feature corrupts the component-to-feature map (C39).
* Activities, constraint arrays and `chis_feat` are shared with the finder
  (C55).
* Grand-canonical chemical potentials are offset by `(1 + ln l)/l` (C53).
* `max_steps = 0` raises ZeroDivisionError, negative values UnboundLocalError
  (C15); an unknown criterion is reported after the state changed (C14).
* Splitting a run changes the use of the random generator (C16).
* A NaN volume is neither counted nor masked; the step schedule loses a step at
  2^53+1 and divides by zero on underflow (C60, C61).
* A homogeneous start is reported as converged even where it is unstable (C64).
* Writing an entry of the live array `fe.chis` makes it asymmetric, and the
  jacobian is then not the gradient of the energy density (C69).
* `finder.omegas`, documented as read-only, is the live array (C70).
* A global constraint in the canonical ensemble either has no effect or prevents
  convergence (C72).
* Raising `max_steps` moves the convergence checks unless the limits are
  multiples of the interval, so it can change a converged result (C73).
* `Phases.normalize` returns an object that shares `fractions` with its source
  while `sort` and `get_clusters` make copies (C75).
* The default generator is seeded with the whole second of construction, so
  default finders built within one second draw the same numbers (C76).
* `equilibration_error` with a negative order is zero for unbalanced phases (C77).
* Negative entries of `num_comp_per_feat` are accepted and make the compiled
  loop leave its arrays (C78).
* The warning about `phi_means` is slightly wider than the default tolerance (C79).
* `is_stable` is True on the spinodal and for some unstable blends of polymers,
  where arbitrarily small demixing lowers the energy (C80).
* A component with zero `phi_means` still slows the solver down: its field enters
  the errors and the multiplier of all others although it is nowhere (C81).
* The elasticity of a `LinearGlobalConstraint` acts on the residue summed over the
  compartments, so the same value is twice as stiff with twice as many compartments (C82).
* `max_abs_omega_diff` and `max_constraint_residue` start from 0 and use the builtin `max`,
  so a NaN never shows in them: with all fields NaN the reported field error is 0.0 (C83).
  The volume error is the one that exposes NaN.
- C85, `case_C85_overflow`: when the Boltzmann factors of a component overflow in the sum `Q`, the prefactor is 0 and the component vanishes from all compartments without an exception (the reported incompressibility error is then 1).
- C86, `C86_budget_refuted`: a signal that arrives while the compiled metastep is running is raised before `finder.py:614`, so the revivals of that metastep are not charged to the revive budget; after any abandoned run `diagnostics` still describe the previous run although the fields have moved.
- C87, `C87_full_means_converged_refuted`: bars are rounded to tenths of a digit, so all four bars can be full while errors exceed the tolerance by up to 12 percent and the run goes on.
- C89, `C89_refuted`: `equilibration_error` subtracts the mean over the first axis and takes the norm along axis 1 whatever the number of dimensions, so for an array of shape (1, P, nc) it reports zeros for any phases.
- C99, `C99_exchange`, `C99_stability`: at a composition without the component `index`, `exchange_chemical_potentials(phis, index)[index]` is nan instead of 0, and is_stable reports True if the eigenvalue solver returns nan.

## 7. Testing the theorems

`seeded/LOG.jsonl` has one line per wrong program: an edit of a model
definition in a scratch copy, the claim it breaks, and the theorems that fail.
All failing proofs of the scratch copy are admitted one by one and the
theorems depending on them are collected with `Print Assumptions`.

Lines whose claim reads "generated edit" come from a script that changed single
tokens of model definitions (660 edits; the 89 that did not type-check are not
listed). For these the build was stopped at the first failing proofs, which are
named instead of theorems. An edit that survived was read by hand: either a
theorem was added that excludes it (`tightened`; the edit was then tried again) or
the note says why no claim is false for it. The latter is a judgement by reading,
not a proof.
