# Formal model of CBXpy — design

Source: `/repo` (PdIPS/CBXpy, pinned commit). Prover: Coq 8.16.1.
All Coq files are in `rocq/theories/`, logical path `Verif`.
`properties.jsonl` holds the properties (C01 …), `MANIFEST.json` the theorems that
settle them, `seeded/LOG.jsonl` the log of deliberate model bugs used to test the theorems.

## 1. How the code is modelled

The package is array code driven by a small state machine. It is modelled in two layers.

**Layer A – the state machine (executable Gallina).**
* Scalars are `fl K`: finite values of an ordered field `K`, `+inf`, `-inf`, `NaN`, with the IEEE rules for
  comparison and arithmetic on the special values (`Scalar.v`). `K` is any type with operations; instances are `Z`
  (to compute examples) and `R` (for theorems that need analysis). Rounding, overflow and signed zero are not modelled.
* An array of shape `(M, N)` of cells is a list of `M` rows of `N` cells. A cell is a scalar (energies) or a
  particle (positions). NumPy broadcasting along the two leading axes, fancy indexing, fancy assignment
  (last write wins), `argmin`/`min` (NaN rules included), `where` are modelled in `Np.v` and can fail with an
  exception value (`ShapeError`, `IndexError` …); a step of a dynamic is a function `state -> res state`.
  Where all axes matter (covariance noise, objective promotion, squeeze) arrays are n-dimensional: `Nd.v`.
* Everything user-supplied is a parameter: the objective, the norm, the row-wise consensus function, the particle-wise
  noise, the post-processing, the vector operations. Randomness (noise draws, batch permutations) is an argument of
  each step. A theorem quantified over these holds for every draw and every seed.
* A run of `optimize` is a fuel-indexed loop over an infinite stream of random inputs.

**Layer B – real analysis.** Numerical formulas (consensus weights, noise, mirror maps, projections, constraints,
effective sample size, objectives, moments) are modelled as functions on `R` and lists of `R`, formula by formula.
Divisions that NumPy evaluates at zero are guarded explicitly or modelled in `fl R`.

Layer A instantiated at `K = R` with the Layer-B formulas (`Cbo.v`) gives the full CBO model; the theorems on whole
runs (C35–C38, C72) are about that instance.

**Aliasing** (C18, C19, C58) is modelled with an explicit memory of arrays/lists (`Alias.v`, `Shared.v`).

File naming: `X.v` model, `XSpec.v` specification (independent of the model's helpers), `*Facts.v` and similar lemmas,
`Ex*.v` concrete cases, `Props_*.v` the property theorems and nothing else.

## 2. Properties: what is modelled, how proved

| Ids | Model | Proof |
|---|---|---|
| C01, C02 | `Pdyn.v` (step, best bookkeeping), `Exec.v` (executions with log of evaluations) | invariant by induction over executions: the recorded best is in the log, every logged value is >= it |
| C03 | same, objective with NaN | two executions computed by the kernel |
| C04, C05 | optimize loop and criteria (`Pdyn.v`), `TermSpec.v` | induction over fuel; matrix-of-criteria lemmas |
| C06, C07 | step + termination checks | frame lemmas for gather/scatter; case analysis on the built-in criteria |
| C08 | M-run dynamic against a one-run dynamic (`IndepSpec.v`) | simulation, method by method; step, construction, check and optimize |
| C09, C68 | step in the `res` monad | well-formedness invariant, progress lemma; saved points compared entry by entry |
| C10–C12 | evaluation counters | invariant over executions; exact increment for the correction |
| C13, C14 | batch index machine, `BatchSpec.v` | invariant: the remaining indices are a suffix of a permutation / of a stream of permutations; counting lemma |
| C15, C16 | `PostProc.v` on `fl R` | case analysis on the IEEE class of each coordinate |
| C17 | track, init_history (`HistSpec.v`) | induction over steps, arithmetic of save_int |
| C18, C58 | `Alias.v`: buffers, views and copies; `Objective.v` init_x | symbolic execution of the memory, induction over calls |
| C19 | `Shared.v` | induction over the number of dynamics built |
| C20 | reset | frame equalities; inequality with a fresh construction |
| C21 | t, it | invariant |
| C22, C23 | `Sched.v` multiply, param_update lists | induction, closed form |
| C24–C26 | bisection_solve | loop invariant (bracket width), accuracy, two explicit runs for every tolerance |
| C27, C28 | effective sample size on `R` | Cauchy–Schwarz; monotonicity by convexity of log-sum-exp along alpha; lower bound on the reachable alpha; when the equation has a solution in the bracket the alpha set solves it to the tolerance or to the bisection resolution |
| C29–C32 | `Consensus.v` on `fl R`/`R` | algebra on finite sums, limits |
| C33, C34, C70 | `Polar.v` kernels and polarised consensus; shapes on n-d arrays | algebra on finite sums; shape calculus |
| C35–C38, C72 | `Cbo.v`: full CBO instance; `CovCbo.v` for covariance noise; two coupled runs in `TwinSpec.v` | induction over executions; simulation between the two runs |
| C39 | `MatSqrt.v`: matrices as functions of indices; `eigh` an oracle with contract | finite sums |
| C40–C44 | `Memory.v`: CBOMemory, PSO | invariants over executions; first-step analysis; exact raise condition |
| C45, C46, C76 | `Variant.v`: MirrorCBO, AdamCBO, DriftConstrained, HyperSurface, RegCombination inner steps | shape semantics, induction over executions; explicit contaminated coordinates |
| C47 | `Stagnation.v` | ring-buffer invariant against the list of consensus energies; raise conditions |
| C48 | AdamCBO moments (`AdamR.v`) | geometric sums, induction |
| C49–C52 | `MirrorMaps.v` | real algebra; nearest-point inequalities; SVD an oracle with contract; simulation L2 MirrorCBO = CBO |
| C53 | `HyperMaps.v` | signed distances, projections, induction over runs |
| C54, C55 | `Constraints.v`, `ConMulti.v`; spec `ConSpec.v`, `ConMultiSpec.v` | derivatives with the standard library; linear systems; solve an oracle with contract |
| C56, C75 | `RegSched.v` | induction; shape calculus |
| C57, C79 | `Objective.v`, `Squeeze.v` on n-d arrays | reshape lemmas |
| C59–C61, C73, C74 | `Resampling.v` | induction over call sequences; set lemmas |
| C62 | `Success.v` | set lemmas |
| C63, C64, C77, C78, C80 | `Objectives.v` | real inequalities, intermediate values, explicit witnesses |
| C65–C67 | `Torch.v`, `Plotting.v`, `Dispatch.v` | list lemmas, case analysis |
| C81 | `MomentSpec.v`: expectation as a normalised linear functional; step of `Cbo.v` | linearity; sums of coordinates |
| C82 | `Cbs.v`, `CovCbo.v` | matrix root squared = covariance, linearity |
| C83 | `KickNoise.v`: fuel loop; spec `KickSpec.v` | loop invariant; induction over executions; counterexamples by computation |
| C84 | `PenSpec.v`: executions with weight changes, log with prices; `PenFacts.v`, `PenRun.v` | invariant over executions; counterexample by computation |
| C85 | `Regularizers.v`; spec `RegzSpec.v`: distance to a set | Cauchy-Schwarz, explicit nearest points |
| C86 | `Variant.v`; spec `VarExactSpec.v`: consensus of the own run, noise, drift | `VarExact.v`: each step computed cell by cell from the invariant of all executions |
| C87 | `Potentials.v`; spec `PotSpec.v`: the convex functions, conjugate points, Bregman distances | `PotFacts.v` (one coordinate: slopes, derivatives), `PotMaps.v`, `PotConj.v`, `PotDefect.v` |
| C88 | `Prox.v` (`apply_prox`, `prox_cfg`); spec `ProxSpec.v`: runs in a set, maps landing in a set, histories | `ProxFacts.v` on `step_positions` and `best_is_min`; examples `ExProx.v` |
| C89 | `Cbo.v`; spec `MsSpec.v`: mean over the draws step by step, spread, maps that do not increase distances | `MsFacts.v`: exact mean of the spread after one step, Cauchy-Schwarz bound of the distance to the consensus, induction; examples `ExMs.v` |
| C90 | `Cbo.v`; spec `LimSpec.v`: endless runs | `LimFacts.v`: nested boxes (C35), completeness of R; example `ExLim.v` |
| C91 | `Cbo.v`, `Consensus.v`; spec `ConvSpec.v`: convex sets and functions, noise-free executions | `ConvFacts.v`: barycentres by induction, epigraph (Jensen), Chebyshev's sum inequality, induction over executions; examples `ExConv.v` |
| C92 | `Cbo.v`, `Pdyn.v`; spec `TolSpec.v`: distances moved, mean distance to a point | `TolFacts.v`: Frobenius norms, invariant of the loop of optimize (shrinking boxes or at rest); example `ExTol.v` |
| C93 | `TorchEval.v`: functional_call over an external forward pass, argmax, counting loop; spec `TorchEvalSpec.v`: replaced parameters, first maximum, tally | `TorchEvalFacts.v`: from C65_flatten, induction over the loader; example `ExTorch.v` |
| C94 | `Rounding.v`: logsumexp, weights and mean with a rounding after each operation, exp/log/sum of the libraries as parameters; spec `RoundSpec.v`: error bounds of an arithmetic, rounded sums in any order, double precision by Flocq | `RoundFacts.v`, `RoundFacts2.v`: forward error analysis; `ExRound.v`: double precision meets the bounds, absorption of log 2 |
| C95 | Layer A with its scalars instantiated by `KOps_rounded` (spec `ClockSpec.v`): reals with a rounding after each operation; double precision by Flocq | `ClockFacts.v`: induction over the loop, error of repeated additions; `ExClock.v`: the eleven sums of 0.1 in double precision, absorption of dt at 2^(j+53) |
| C96 | `ParticleInit.v`: init_particles over oracles for the uniform and normal draws and the svd which NumPy's multivariate_normal uses; spec `ParticleInitSpec.v`: contract of svd, moments | `ParticleInitFacts.v`: all singular values of delta^2 I are delta^2; second moments under an orthogonal matrix |
| C97 | `Samplers.v`: both samplers, torch scheduler; `ParticleInit.v`: torch post-processing; spec `SamplerSpec.v`: exponential moments, independent signs | `SamplerFacts.v`: moments of products; bisection bounds of C24 make ensure_max a no-op |
| C98 | `Mixture.v`: freezing, pdf, zip, -log of the sum, squeezing of the result; spec `MixSpec.v`: densities by inverse matrix and determinant, positive definiteness | `MixFacts.v`: diagonalisation of the quadratic form, positive definite iff positive eigenvalues, uniqueness of the inverse |
| C99 | `Dtype.v`: element types, assignment into typed arrays, in-place addition, init_alpha, typed steps of CBO, CBOMemory, PSO; spec `DtypeSpec.v` | `DtypeFacts.v`: refinement for floats, invariant over typed PSO runs, totality of the untyped step up to the in-place addition |
| C100 | `Seed.v`: generators as states, world (np.random, system entropy), constructor, step, optimize with explicit draws, scripts over several dynamics; spec `SeedSpec.v` | `SeedFacts.v`: noninterference by induction over scripts, refinement to `exec`, indices and batch generator as iterates of one function |
| C101 | `Optimize.v`: optimize with its arguments, resolve, default schedules, CBS.run, init_term; spec `OptimizeSpec.v` (closed form of alpha, sequences of calls) | `OptimizeFacts.v`: induction over the loop, composition law of the capped schedule, reachability of the state left, totality with 'effective' |
| C102 | the same `cbo_cfg` as C36-C38; spec `UnitsSpec.v` (unit systems, conversion of states and criteria, pairs of executions) | `UnitsFacts.v`, `UnitsSym.v`: relational induction over the calls with the conversion as invariant; consensus, noise, move, update norm and comparisons are equivariant |
| C103 | `HyperRun.v` (configuration, x_tilde), `Variant.v` (hyper_inner), `HyperMaps.v`; spec `HyperMoveSpec.v` (first-order defect, sequences of steps, foot point) | `HyperTotal.v` (steps do not fail), `HyperMoveFacts.v` (mean of |x_tilde|^2 by expanding the square; fixed points), `HyperMoveRun.v` (induction over the steps), `HyperMoveMore.v` (counterexamples), `StiefelNoise.v` (mean of (PZ)^T(PZ) from the covariance of the entries of X^T Z) |
| C104 | the same `cbo_cfg` as C36-C38; spec `RelabelSpec.v` (bijections, reordered rows, relabelled states and draws, pairs of executions) | `RelabelFacts.v`, `RelabelReal.v`: relational induction over the calls; gather/scatter commute with relabelling, consensus, smallest energy and update norm are invariant under permutations |
| C105 | `adam_inner` (C48) with the CBO configuration; spec `AdamStepSpec.v` (quotient of the corrected moments, bound) | `AdamStep.v`: Cauchy-Schwarz type inequality between the two exponential sums by induction over the drifts, then the step characterisation of C48 |
| C106 | `cc_default`, `pp_point` and the CBO step on values that may be NaN or infinite; spec `NanSpec.v` (energies with undefined mean) | `NanFacts.v`: case analysis of the softmax, NaN propagation through the update, induction over later executions |
| C107 | `PolarRun.v`: kernels on float points, `polar_row`, `polar_cfg`; spec `PolarRunSpec.v` (same_run, spread, batches_fit, polar_state) | `TwinRow.v`: coupling of two dynamics whose consensus rows have one point or one per particle, induction over the common calls; `PolarSym.v`: the four instances |
| C108 | `polar_cfg` of C107; spec `PolarRestSpec.v` (ensembles whose particles are apart, convex regions, members of a cluster, lockstep executions of two dynamics) | `PolarRest.v`, `PolarCluster.v`: weights vanish exactly with the kernel; among particles with a distinct neighbour one of maximal norm cannot be the mean of what it sees; induction over executions |
| C109 | `cov_cbo_step`, `cbs_step` (C34, C82); spec `CbsRunSpec.v` (steps with valid inputs, affine hull, moved runs) | `CbsRun.v`: uniqueness of the root by tr(D S D) + tr(D T D) = 0; `CbsMove.v`: closed form of the step, sqrt(C) = C P, hull and moved-run inductions |
| C110 | `mem_step Pso`, `mem_step CBOMem` (Memory.v); spec `MemRunSpec.v` (steps with parameters of a kind, untouched runs, rising objectives) | `MemMove.v`, `MemMove2.v`: entries of the moved arrays; `MemRun.v`: one step over the reals and the induction principle; `MemRun2.v`: linear recurrence of differences; `MemRun3.v`: convex regions |
| C111 | `mem_session` (MemSymSpec.v) over `mem_step`, `mem_init` (Memory.v) and Pdyn.v; spec `SimSpec.v` (related outcomes and states), `MemSymSpec.v` | `SimNp.v`, `SimFacts.v`, `SimMem.v`: every function of the step maps related inputs to related outcomes (a simulation, exceptions included); `SymLaws.v`: the three symmetries satisfy the laws of the simulation |
| C112 | `live_init`, `live_update`, `arrows` (LivePlot.v) on the states of Pdyn.v; `plot_history` (Plotting.v) | `LiveFacts.v` (from `step_char`: rows of consensus and drift are indexed by active runs; `rec_chain` for histories), `LiveReal.v` (tips, from `consensus_gibbs`) |
| C113 | `cbo_cfg` (Cbo.v) and `mem_session` (MemSymSpec.v), `cbo_session` (SessSpec.v: construction and any sequence of calls) | relational simulation (`SimCbo.v`, `SimMem.v`) with the laws of `SymLaws.v`, instantiated in `CoordFacts.v`; the refutation computes one isotropic step (`ExCoord.v`) |
| C114 | `vstep` with the inner steps of Variant.v; `var_session` (VarSessSpec.v: construction and any sequence of calls with the variant's attributes) | relational simulation of the variants' inner steps (`SimVar.v`, `VarSym.v`) with the laws of `SymLaws.v`, instantiated in `VarSymInst.v`; examples in `ExVarSym.v` |
| C115 | `vstep` and the inner steps of Variant.v, `var_session` (VarSessSpec.v); admissible constructions and calls in `VarTotalSpec.v` | totality of every inner step from the invariant of `VarFacts.v` (`VarTotal.v`), lifted to sessions by induction over the calls (`VarTotalSess.v`) |
| C116 | `optimize_shown` (Printing.v): the loop of optimize with the list of printed lines | erasure and induction over the loop (`PrintFacts.v`), best-energy invariant of `BestFacts.v`; one step computed by the kernel for the refutation |
| C117 | `mirror_tstep`, `mirror_resample` (MirrorDual.v): the step with history['y'], and apply_resampling_default for both variable names | induction over sessions `msess` (`MirrorDualFacts.v`), one-step law `VarExact.mirror_move_wf`; refutations computed by the kernel |
| C118 | NdPart.v on the broadcasting arrays of Nd.v: `nd_step`, `nd_polar_step`, `nd_update_diff`, `nd_diff_tol`, `nd_drift_mean`, `nd_num_eval`, `promoted_shape` | broadcasting lemmas for arrays of any dimension (`NdPartFacts.v`), compared with the operations on lists (`NdPartSpec.v`); raising by counting axes (`NdPartFacts2.v`) |
| C119 | kernels of Polar.v; `PolarObj.v`: set_kernel, kernel_factor and assignments as operations on the attributes kappa, kernel, kernel_factor_mode | real analysis of the four formulas, `polar_coeffs_char`; induction over the operations (`PolarDocFacts.v`) |
| C120 | `ScaleSpec.v` on the state machine of Pdyn.v, Memory.v and Variant.v | an instance of the relational laws of SimFacts.v (`scale_laws`) and the session theorems of SimCbo.v, SimMem.v and SimVar.v (`ScaleLaws.v`, `ScaleVar.v`) |
| C121 | `WL2.v` (matmul, reshape and grad on n-dimensional arrays; a memory of arrays with the names x and y), `WL2Spec.v` (sessions) | index arithmetic of reshape, an invariant over sessions, and refinement to the sessions of VarSpec.v (`WL2Facts.v`) |
| C122 | `Ctor.v` (signatures, keyword passing through super().__init__, attribute lookup of the hooks), `CtorSpec.v` (documented keywords and defaults) | keyword passing is a filter along the list of classes, by induction on it; values by evaluation of the finitely many classes for symbolic keyword lists (`CtorFacts.v`, `ExCtor.v`) |
| C123 | CBO with mini-batches (`Pdyn.v`, `Cbo.v`); spec as for C35 and C90 (`CboSpec.v`, `LimSpec.v`) | one step moves all particles by the consensus of the batch (partial=False) or only those in the batch; induction over executions (`MiniFacts.v`) |
| C124 | CBO over rounded scalars (`CboRound.v`, `Rounding.v`); spec `CboRoundSpec.v` | error analysis of one move, bound on the computed consensus from C94, induction over sessions (`CboRoundFacts.v`); refutations computed with Flocq (`ExCboRound.v`) |
| C125 | `Objectives.v`; documented formulas in `DocSpec.v` | algebra, polar coordinates and injectivity of powers (`DocFacts.v`) |
| C126 | `call` (Ctor.v); documented defaults in `DefaultSpec.v` | one constructor call by cases, shared parameters by C122 (`DefaultFacts.v`) |
| C127 | `vstep` with the inner steps of Variant.v; relation `twins` in `VarIndepSpec.v` | moves of one step by C86 and C48, the rest of a run by `good_step`, induction over the steps (`VarIndep.v`) |
| C128 | `Plot1D.v`: linspace, meshgrid with transposes and stack, pictures with the number of evaluations | arithmetic of the grid, fancy assignment (`put1_nth`), the pictures from `live_tips` of C112 |
| C129 | `ConRunSpec.v`: steps with finite draws and termination checks in any order; `Variant.v`, `Constraints.v` | the violation is affine for planes and the consensus lies in the convex set (`own_in`), the linear system gives the factor (`plane_system`); consensus states follow the solver (`reg_follow`, `dc_follow`), beside spheres the linear system is solved by hand (`sphere_system`) |
| C130 | `MirrorStopSpec.v`: steps with finite draws and termination checks in any order; `Variant.v` (mirror_inner) | the consensus lies in the convex set {p} (`own_in`), hence the increment of every dual point is zero (`no_increment`); stopped runs by C52 (`mirror_frozen`) |
| C69, C71 | correction, `CovNoise.v` on n-d arrays | exact raise condition by shape calculus |

Properties which the faithful model violates are proved as `…_refuted` (an explicit counterexample, usually for all
parameters) together with the part that does hold; they are findings and are listed in section 4.

## 3. Trusted base

* Coq's kernel (checked again with `coqchk`).
* The axioms printed by `Print Assumptions` under each theorem, see 3.1. All belong to the standard library; no axiom is
  added by this development.
* Libraries: Coq's standard library, and Flocq (`Core`, `Prop.Relative`) for double precision in C94 and C95, whose
  theorems are proved in Flocq without axioms of its own (`coqchk` covers them). No other library is used.
* The faithfulness of the model to the code; each definition cites the lines it mirrors and names its simplifications.

### 3.1 Print Assumptions

**Closed under the global context** (222): C01_best_pair, C02_best_is_minimum, C02_best_never_increases, C03_nan_breaks_best_pair_refuted, C03_nan_hides_better_refuted, C04_at_most_max_it_steps, C04_exactly_max_it_steps, C04_no_criterion_never_stops, C05_active_runs, C06_terminated_positions_fixed, C06_terminated_run_frozen, C07_active_set_shrinks, C08_construction, C08_optimize, C08_step, C08_termination, C09_step_never_raises, C100_batches_refuted, C100_check_changes_run_refuted, C100_check_draws, C100_executions, C100_global_sampler_refuted, C100_isolated, C100_no_seed_refuted, C100_one_draw, C100_same_batch_refuted, C100_seed_without_ensemble_refuted, C101_fresh_draws, C101_memory_fresh_draws, C103_lamda_refuted, C103_total, C10_budget_respected, C10_budget_used_up, C112_first_picture, C112_history_shows_same, C112_history_shows_same_refuted, C112_picture_mixes_runs, C112_picture_of_run_refuted, C112_picture_raises, C115_adam, C115_drift_constrained, C115_hyper, C115_mirror, C115_reg_combination, C116_current_energy_refuted, C116_f_min, C117_dual_shift, C117_history, C117_move, C117_positions, C117_resample_x, C117_resample_y, C117_resampling_moves_refuted, C117_same_index_refuted, C118_flattening, C118_num_eval, C118_promoted_accepted, C118_promoted_vector, C119_constructed_kernel, C119_kernel_in_use, C119_names, C119_unknown_name, C11_counters_add_up, C121_is_cbo, C121_move, C121_others_repaired_refuted, C121_separate, C121_shared, C121_zero_update_refuted, C122_accepts, C122_consensus_refuted, C122_numpy, C122_torch, C122_torch_accepts, C122_torch_consensus, C122_torch_consensus_refuted, C122_torch_device_refuted, C122_torch_seed, C122_torch_seed_refuted, C122_torch_values, C122_values, C126_actual, C126_base, C126_cbo, C126_documented_refuted, C126_keywords_refuted, C126_memory_actual, C126_own, C126_pso_actual, C126_unique, C127_adam, C127_construction, C127_drift_constrained, C127_hypersurface, C127_memory, C127_memory_construction, C127_mirror, C127_reg_combination, C12_heaviside_counters_refuted, C13_batch_size, C13_batches_valid, C13_concat_duplicates_refuted, C14_concat_fair, C14_resample_epochs, C17_history, C18_dynamics, C18_first_entry, C18_initial_ensemble_kept_refuted, C18_later_entries, C19_independent_records_refuted, C19_other_names_raise, C19_trackers, C20_reset, C20_reset_not_fresh_refuted, C22_capped, C22_others_untouched, C23_empty, C23_in_order, C23_nested, C23_parameters_only, C40_best_energy, C40_memory_best, C40_monotone, C41_best_particle_refuted, C41_first_step, C42_best_particle_refuted, C42_first_step, C44_memory_batch_raises, C44_otherwise_works, C44_raises, C45_drift_constrained_moves_all_refuted, C45_drift_constrained_raises, C45_frozen_refuted, C45_hypersurface_moves_all_refuted, C45_hypersurface_raises, C45_reg_combination_raises, C45_reg_combination_shape, C46_execution_refuted, C46_step_refuted, C52_clipping_refuted, C52_dual, C52_feasible, C52_identity_is_cbo, C52_identity_step, C52_terminated, C57_all_pointwise_accepted_refuted, C57_check_1D, C57_check_2D, C57_check_counts, C57_counter, C57_init_f, C57_init_f_accepts, C57_matrix, C57_pointwise, C57_promote, C57_vector, C58_accepts, C58_drawn, C58_none, C58_shapes, C58_user_array_kept, C59_loss_update, C60_patience_refuted, C60_stagnation, C61_no_rules_raise, C61_repeated_calls, C61_resampling, C65_default_names, C65_flatten, C65_repeated_names_refuted, C65_sizes, C65_unflatten, C65_unknown_name, C66_frames, C66_terminated_refuted, C66_zero_limit_refuted, C67_callables, C67_constraints, C67_correction, C67_documented_refuted, C67_mirror, C67_noise, C67_others, C67_sdf_reg, C67_termination, C68_saved_points, C69_heaviside_raises_refuted, C69_heaviside_works, C70_polar_full_update_refuted, C73_terminated_run_refuted, C74_best_consensus_all_active, C74_best_consensus_raises, C74_best_consensus_refuted, C75_fewer_runs_refuted, C75_pointwise, C76_adam_best, C76_drift_constrained_best, C76_hypersurface_best, C76_mirror_best, C76_reg_combination_best, C79_1D, C79_check_3D, C79_pointwise_3D, C83_best_pair_refuted, C83_frozen_refuted, C83_fuel, C83_idle, C83_never_returns_refuted, C83_off, C83_step, C84_best_of_the_past, C84_infeasible_for_ever, C84_present_objective_refuted, C86_drift_constrained, C86_hypersurface, C86_mirror, C86_reg_combination, C86_reg_combination_many_constraints_refuted, C93_empty, C93_losses, C93_row_is_model, C95_steps.

**Axioms `ClassicalDedekindReals.sig_forall_dec`** (7): C118_promoted_refuted, C119_alpha_mode_refuted, C119_kappa_refuted, C119_modes, C128_evaluations, C128_no_drift, C82_init.

**Axioms `ClassicalDedekindReals.sig_forall_dec`, `FunctionalExtensionality.functional_extensionality_dep`** (95): C101_cbs_default, C101_cbs_same_schedules_refuted, C102_fixed_threshold_refuted, C102_threshold, C109_default_clips, C109_root_unique, C118_diff_tol_raises, C118_diff_tol_vector, C118_drift_mean_shape, C118_drift_mean_vector, C118_polar_gauss_kernel, C121_matrices, C121_rows, C121_scalar, C121_vectors_raise, C121_vectors_refuted, C124_move, C128_consensus_on_graph_refuted, C128_contour, C128_contour_raises, C128_curve, C128_first_picture, C15_idempotent, C15_in_range_unchanged, C15_positions_bounded, C15_post_process_values, C16_nan_survives_refuted, C21_max_time, C21_time, C22_minimum_not_enforced, C22_multiply, C22_multiply_shrink, C24_bracket, C24_stops, C25_accuracy, C25_roots_kept, C26_runs_not_independent_refuted, C35_default_post, C36_default_post, C55_hessian_unique, C62_distance, C62_evaluation, C62_value, C63_camel, C63_himmelblau, C63_himmelblau_listed, C63_rosenbrock, C64_himmelblau, C64_rosenbrock, C80_array_refuted, C80_default, C80_list_refuted, C80_minima, C81_contraction, C81_defaults_refuted, C85_l0, C85_l0_small_refuted, C85_l0_zero, C85_l1, C85_quadric, C85_quadric_defaults_refuted, C87_gradient_weighted_l2, C87_hessian_weighted_l2, C87_weighted_l2_refuted, C89_default_post, C89_factor, C93_accuracy, C93_accuracy_range, C93_batching, C93_labels_needed_refuted, C93_prediction, C95_off_by_one, C96_own, C97_exponential, C97_exponential_torch, C97_torch_bounded, C97_torch_is_numpy, C97_torch_large, C98_array_centre_refuted, C98_det, C99_alpha_constructed, C99_alpha_float, C99_alpha_int_refuted, C99_alpha_stays_zero, C99_cbo_int_refuted, C99_float, C99_memory_int_refuted, C99_memory_value_refuted, C99_numpy_alpha_refuted, C99_optimize_int_refuted, C99_pso_float, C99_pso_frozen_refuted, C99_pso_integers_refuted, C99_pso_velocity_refuted, C99_short_alpha_refuted.

**Axioms `ClassicalDedekindReals.sig_forall_dec`, `ClassicalDedekindReals.sig_not_dec`, `FunctionalExtensionality.functional_extensionality_dep`** (132): C102_time_step_one, C103_anisotropic_refuted, C103_constant_refuted, C103_first_order, C103_isotropic, C103_plane_anisotropic_refuted, C103_plane_isotropic, C103_stiefel_isotropic, C109_affine_covariance, C109_affine_mean, C118_diff_tol_refuted, C118_noise, C118_update_diff_shape, C118_update_diff_vector, C119_gaussian, C119_inverse_quadratic, C119_inverse_quadratic_refuted, C119_laplace, C120_adam_direction, C120_heavi, C125_ackley, C125_ackley_refuted, C125_formulas, C125_rastrigin, C125_rastrigin_original_refuted, C125_rastrigin_refuted, C28_alpha_zero, C28_range, C28_shift, C33_taz_refuted, C33_taz_value, C37_infinite, C37_level_refuted, C39_floats, C39_positive_part, C39_psd, C39_root, C39_root_eigenvalues, C43_factor, C47_fires_exactly, C47_first_check, C47_never_before_patience_after_reset_refuted, C47_raises_for_polar, C47_raises_for_several_runs, C49_stiefel, C50_ball, C50_entropy, C50_hyperplane, C50_log_barrier, C50_nonsmooth_barrier, C50_simplex, C50_sphere, C50_square, C50_stiefel, C51_hyperplane_default_refuted, C51_log_barrier_zero_refuted, C51_square_large_refuted, C51_square_small_refuted, C53_centre_refuted, C53_plane_gradient, C53_projection_matrix, C53_projection_nearest, C53_projection_on_surface, C53_runs_default_post_processing, C53_runs_on_surface, C53_sphere_gradient, C53_sphere_laplacian, C53_tangent, C54_grad, C54_grad_squared, C54_hessian, C54_hessian_squared, C54_multi_grad, C54_multi_hessian, C54_nonsymmetric_refuted, C54_value, C55_feasible, C55_linearised, C55_linearised_sphere_regular, C55_multi_call_hessian, C55_multi_implicit, C55_multi_implicit_other, C55_multi_linearised, C55_multi_none_refuted, C55_plane, C55_quadric, C55_quadric_iff, C55_quadric_nonsymmetric_refuted, C55_sphere, C55_sphere_divisor, C55_sphere_singular, C55_sphere_singular_points, C56_lamda_bounds, C56_means, C56_theta_refuted, C56_update, C63_defined_d, C63_himmelblau_four, C63_quadratic, C63_rastrigin, C64_bukin, C64_rastrigin, C77_accelerated_sinus, C77_accelerated_sinus_values, C77_banana, C77_michalewicz, C77_nd_sinus, C77_p_4th_order, C78_eggholder_lines, C78_mccormick, C80_ackley, C80_rastrigin, C84_scheduler, C85_hyperplane, C85_hyperplane_default_refuted, C85_hyperplane_number, C85_quadric_distance_refuted, C85_sphere, C85_zero_normal, C87_conjugate_ball, C87_conjugate_elastic_net, C87_conjugate_l2, C87_conjugate_nonsmooth_barrier, C88_ball, C88_hyperplane, C88_simplex, C96_ensemble, C96_normal, C96_normal_moments, C96_uniform, C96_uniform_moments, C96_unknown.

**Axioms `ClassicalDedekindReals.sig_forall_dec`, `ClassicalDedekindReals.sig_not_dec`, `Classical_Prop.classic`, `FunctionalExtensionality.functional_extensionality_dep`** (281): C101_calls_accumulate, C101_default_alpha, C101_default_cap, C101_default_termination, C101_effective_alpha, C101_effective_total, C101_no_max_it, C101_none_alpha, C101_print_int, C101_print_zero_refuted, C101_reset_restores_refuted, C101_returns_best, C101_unknown_rejected_refuted, C101_unknown_schedule, C102_stops_together, C102_units, C103_consensus_stays, C103_plane_consensus_refuted, C103_step, C104_best, C104_best_particle_refuted, C104_relabelled, C104_stops_together, C105_absorbing_refuted, C105_bounded, C105_contraction_refuted, C105_dt_refuted, C105_first_step, C105_step, C106_dichotomy, C106_recovers_refuted, C106_step, C107_energy_shift, C107_infinite_kappa, C107_rotation, C107_translation, C108_apart_is_absorbing, C108_clusters_are_independent, C108_regions, C108_rest, C108_who_sees_whom, C109_any_eigendecomposition, C109_cbs, C109_hull, C109_hyperplanes, C109_isometries, C110_memory_hull, C110_pso_clips, C110_pso_leaves, C110_pso_spreads, C111_energy_shift, C111_rotation, C111_translation, C112_arrows_point_at_consensus, C113_coordinates, C113_coordinates_memory, C113_irrelevant, C113_irrelevant_memory, C113_isotropic_refuted, C114_adam_rotation_refuted, C114_adam_shift, C114_adam_translation, C114_dc_rotation, C114_dc_shift, C114_dc_translation, C114_hyper_rotation, C114_hyper_shift, C114_hyper_translation_refuted, C114_mirror_rotation, C114_mirror_shift, C114_reg_rotation, C114_reg_shift, C114_reg_translation, C116_best, C116_energies, C116_every_step, C116_header, C116_no_influence, C116_quiet, C116_times, C117_exact_additions, C118_consensus, C118_polar_gauss, C118_polar_other_raises, C118_polar_refuted, C118_step, C119_constant, C119_constant_refuted, C119_kappa_zero, C119_monotone, C119_weights, C120_adam_energy, C120_cbo, C120_dc, C120_fixed_eps_refuted, C120_hyper, C120_memory, C120_mirror, C120_reg, C123_batch_of_one, C123_contraction, C123_limit, C123_partial_refuted, C124_contraction, C124_hull_refuted, C124_meeting_refuted, C124_step, C125_cross_in_tray, C125_cross_in_tray_refuted, C125_scaled, C125_snowflake_refuted, C128_picture, C129_drift_constrained_centre_refuted, C129_drift_constrained_plane, C129_drift_constrained_sphere, C129_reg_approaches_plane_refuted, C129_reg_approaches_sphere_refuted, C129_reg_bounded_violation_refuted, C129_reg_combination_ensemble, C129_reg_combination_plane, C129_reg_combination_sphere, C129_reg_combination_stable, C130_dual_agreement_refuted, C130_dual_speed, C130_mirror_absorbing, C130_stuck_at_boundary, C27_alpha_floor, C27_alpha_range, C27_target_missed_refuted, C27_target_reached, C28_gap, C28_nonincreasing, C29_all_infinite, C29_check_never_raises, C29_gibbs_mean, C29_weights, C30_box, C30_hull, C30_single, C31_affine, C31_alpha_zero, C31_permutation, C31_rescale, C31_shift, C32_distance, C32_limit, C32_weight_bound, C33_constant_kernel, C33_hull, C33_kernels, C33_self, C33_symmetric, C33_weighted_mean, C34_mixes_refuted, C34_value, C34_works_iff_refuted, C35_box, C35_contraction, C36_absorbing, C36_agreed, C36_constant_noise_refuted, C36_covariance_noise, C36_covariance_step_ok, C37_heavi_side, C37_heavi_side_reg, C37_limit, C38_energy_shift, C38_session_energy_shift, C38_session_translation, C38_translation, C39_covariance, C43_first_step_refuted, C43_repels, C48_after_reset_refuted, C48_bias_correction, C48_mini_batches_refuted, C48_missed_batch, C48_moments, C48_never_raises, C48_second_moment_nonneg, C48_step, C48_uninterrupted, C49_ball, C49_elastic_net, C49_entropy_shift, C49_hyperplane, C49_l2, C49_log_barrier, C49_nonsmooth_barrier, C49_simplex, C49_simplex_boundary_refuted, C49_sphere, C49_square, C50_ball_idempotent, C50_hyperplane_idempotent, C50_sphere_idempotent, C50_square_idempotent, C52_ball, C52_default_is_cbo, C52_feasible_points, C52_simplex, C63_ackley, C63_defined_2, C63_easom, C63_snowflake, C64_drop_wave, C71_covariance_works_iff_refuted, C72_anisotropic_refuted, C72_rotation, C72_session_rotation, C77_bimodal, C77_unimodal, C78_cross_in_tray, C78_eggholder, C78_holder_table, C78_mccormick_second, C81_moments, C82_documented_factor_refuted, C82_moments, C87_ball_center_refuted, C87_bregman_array_refuted, C87_bregman_elastic_net, C87_bregman_entropy_refuted, C87_bregman_l2, C87_bregman_log_barrier, C87_bregman_nonsmooth_barrier, C87_conjugate_entropy_none, C87_conjugate_entropy_refuted, C87_conjugate_log_barrier, C87_gradient_elastic_net, C87_gradient_entropy_refuted, C87_gradient_l2, C87_gradient_log_barrier, C87_gradient_nonsmooth_barrier, C87_hessian_l2_refuted, C87_hessian_log_barrier, C87_hessian_nonsmooth_barrier, C87_value_ball, C87_value_elastic_net, C87_value_entropy, C87_value_l2, C87_value_log_barrier, C87_value_nonsmooth_barrier, C88_best, C88_best_infeasible_refuted, C88_one_step, C88_sphere_origin_refuted, C88_stays, C89_decay, C89_tail, C90_limit, C91_average, C91_consensus_in, C91_convexity_needed, C91_gibbs_energy, C91_invariant, C91_jensen, C91_quasi, C91_worst_energy, C92_diff_tol, C92_diff_tol_each, C92_diff_tol_stops, C92_diff_tol_terminates, C92_drift_mean, C92_update_norm, C94_default, C94_large_energies_refuted, C94_rescaled, C95_stalls_refuted, C95_tenth_refuted, C97_torch_ess, C97_torch_ess_range, C98_accepts, C98_bimodal, C98_bounds, C98_defaults, C98_mixture, C98_single, C98_single_run_refuted, C98_surplus_refuted, C99_alpha_zero_mean.

### 3.2 What of the code is modelled

| File | Modelled | Not modelled |
|---|---|---|
| dynamics/pdyn.py | constructor defaults that affect the state, check_f_dims, init_x, step, pre/inner/post step, energies, consensus, best bookkeeping, batches, history tracking, termination loop, optimize, reset, post_process_default, compute_consensus | texts and formatting of printed lines, `save_history`-style I/O, `array_module` other than NumPy, copy functions that do not copy |
| dynamics/cbo.py, noise.py, correction.py | all; rounding of the arithmetic in C94 and C124 | – |
| dynamics/cbs.py | all but the sampling noise as a distribution (`Cbs.v`) | distribution of the draws |
| dynamics/polarcbo.py | kernels, polarised consensus, mini-batch shapes | – |
| dynamics/cbo_memory.py, pso.py | all | – |
| dynamics/mirrorcbo.py | maps, functions, Hessians, Bregman distances, inner step | - |
| dynamics/adamcbo.py, driftconstrainedcbo.py, hypersurfacecbo.py, regcombinationcbo.py | inner steps, surfaces, independent noise, the Stiefel Laplacian through its effect on the noise correction (C103) | derivation of the Stiefel Laplacian from a distance function |
| constraints.py, regularizers.py, scheduler.py | all classes used by the dynamics | – |
| objectives.py | every function's value in one point, squeeze, promotion | – |
| utils/history.py, termination.py, resampling.py, success.py, objective_handling.py | all | – |
| utils/particle_init.py | init_particles: shapes, exceptions, ranges, first and second moments | the random number generator (draws are parameters) |
| utils/torch_utils.py | flattening and unflattening of parameters, eval_model(s), eval_loss(es), eval_acc over an external forward pass, post-processing, exponential sampler, effective_sample_size, the classes built by to_torch_dynamic | torch itself, vmap (a loop over the rows) |
| plotting.py | indices and limits read from the history; points and arrows of live plots, also for one-dimensional particles; grids and values of the plots of the objective (C128) | drawing, axes, colours |

## 4. Findings

Behaviour of the code that contradicts its documentation, its evident purpose or the stated property. Each item is
proved (theorems of the property named) unless marked *read*: then it was only seen when reading the code.

1. history['x'][0] is the live array and is overwritten by the first in-place update (C18).
2. A shared `track_args['extra_tracks']` list is extended by each constructor: k dynamics record k times; earlier dynamics raise KeyError for names of later ones (C19).
3. reset() keeps best particle, best energy, Adam moments and stagnation memory and loses configuration (C20, C47, C48).
4. A NaN objective value hides better particles for the rest of the run (C03); post_process_default(copy_nan_to_num=True) discards its own result (C16).
5. CBOMemory and PSO return a best particle that does not attain best_energy (C41, C42); the PSO drift is repulsive (C43); both raise once runs terminate at different times, CBOMemory also for every batch size 1 < b < N (C44).
6. energy_stagnation raises for two or more active runs and for per-particle consensus; its memory survives reset (C47).
7. With exactly one active run the DriftConstrained/HyperSurface/RegCombination dynamics move terminated runs by the consensus of the active one, otherwise they raise (C45). DriftConstrainedCBO without constraints never moves (C46).
8. heavi_side counts N evaluations for each run even if one is active (C12), raises for partially terminated ensembles (C69).
9. PolarCBO: full update from mini-batches raises (C70); covariance shapes only work for M = 1 or M = N and then mix runs (C34); the Taz kernel gives NaN or depends on other runs (C33).
10. Covariance noise raises once runs terminate at different times or with batches (C71).
11. Resampling moves terminated runs (C73), attributes the best consensus to the wrong run or raises (C74), consensus_stagnation ignores its patience at the start (C60).
12. Schedulers: bisection couples runs (C26); effective_sample_size cannot reach small alpha (C27); multiply has no lower bound (`minimum` is not enforced, C22).
13. Regularised objectives fail after the first termination (C75); theta of the regularisation scheduler is unbounded (C56).
14. Mirror maps: ProjectionSquare sign error, default hyperplane, LogBarrierBox(0) = NaN (C51); EntropySimplex moves boundary points (C49); MirrorCBO ignores clipping of x (C52). weighted_L2 aliases x and y and its grad_conj is no inverse (C121).
15. Constraints: gradient and implicit step of a non-symmetric quadric are wrong (C54, C55); the implicit step of the sphere is singular on a set characterised in C55; MultiConstraint.solve_Id_hessian_squared_sum without constraints returns the number 0 instead of x_tilde (C55).
16. HyperSurfaceCBO: the centre of the sphere becomes NaN and is thrown to the clipping threshold (C53).
17. '1D'/'2D' objectives are rejected for ensembles with more than three axes (C57); squeezing objectives are rejected as '3D' for M = 1 or N = 1 (C79).
18. Wrong documented minima: Bukin6, drop_wave, Himmelblau with factor, McCormick's second (C64, C78); McCormick, eggholder, Holder_table, cross_in_tray are unbounded below (C78). Rastrigin/Ackley_multimodal cannot be given centres (C80).
19. Plotting indexes the rows of active runs by run number (C66); y_min = 0 is ignored (C66). Repeated parameter names give wrong slices (C65).
20. The documented names None and 'none' are rejected (C67). Batches of mode 'concat' may contain duplicates (C13).
21. AdamCBO's bias correction is wrong after reset and for every particle that has missed a mini-batch (C48). Constant noise does not make consensus absorbing (C36).
22. All energies +inf give a NaN consensus (C29).
23. *read*: the documented Rastrigin formula has a factor 1/n the code lacks.
24. With the default parameters the mean square distance to the consensus grows by at least 24% in every step (C81).
25. CBS ignores sigma, accepts every mode string (all but 'sampling' mean 'optimization'), its noise factor is not the documented one (C82). *read*: CBS.optimize returns None.
26. Independent noise: best_particle is the position before the noise, best_energy the value after it; terminated runs are moved; dt = 0 never returns (C83).
27. Under a growing penalty weight best_energy/best_particle belong to old weights: an infeasible early point can stay best for ever (C84).
28. HyperplaneDistance with its default a=1 is sqrt(d) times the distance, L0 ignores entries up to 1e-8, QuadricDistance is no distance and cannot be used with its defaults (C85).
29. RegCombinationCBO accepts a list of constraints but with two or more (and eps < 1e15) its solver raises ValueError in every step (C55, C86).
30. Mirror maps: Entropy is concave, so its conjugate map minimises and its Bregman distances are negative; L2.hessian lacks lamda; weighted_L2.grad_conj is the identity; NonsmoothBarrier.__call__ sums over all particles; ProjectionBall.__call__ ignores the centre (C87).
31. CBO post-processed by a projection may return an infeasible best particle: initial particles are evaluated before they are projected, and an infeasible one that beats the set is never replaced (C88).
32. C93: eval_acc compares predictions and labels with broadcasting, so a batch of one image with several labels counts several hits and the accuracy exceeds 1.
33. C94: compute_consensus_default loses the normalisation in floating point when |alpha*energy| reaches 2^55 (error u*|alpha*energy| before): equal particles at p have consensus 2p; subtracting the minimum first, as compute_consensus_rescale does, avoids it.
34. C95: `self.t += self.dt` accumulates rounding errors: dt=0.1, max_time=1 performs 11 steps (t = 0.9999999999999999 after 10); computing t as it*dt would not. For max_time > 2^53 dt the clock stalls.
35. C97: exponential_sampler is not normalised: its variance is 2, so that sigma means sqrt(2) sigma compared with the default sampler.
36. C98: Multimodal(means=[m1,m2]) with the default covs is the objective of m1 alone (zip stops at the shorter list); with f_dim='3D' and M=1 it fails the shape check; Bimodal(a=np.array([1.,2.])) raises ValueError (truth value of an array).
37. C99: with x of integer type (e.g. x=np.array([[[0],[4]]])) CBO and CBOMemory raise UFuncTypeError in their first step, PSO silently truncates velocities and memories to integers, and alpha=0.5 becomes 0; alpha=np.float32(10) or a (1,1) array with M>1 raises IndexError at the first consensus.
38. C100: seed=… does not seed the initial particles (np.random.uniform, pdyn.py:211) nor the independent noise of DriftConstrainedCBO (np.random.normal, driftconstrainedcbo.py:60); check_f_dims=True/False gives different runs for the same seed; batches are the same for all seeds unless batch_args['seed'] is set.
39. C101: optimize(print_int=0) raises ZeroDivisionError after the first step even with verbosity 0 (pdyn.py:360); reset() keeps the alpha reached by the schedule, so a second optimize() starts from 1.05^n alpha; a misspelt schedule name fails with AttributeError after the first step only, and not at all if the dynamic has terminated; CBS.optimize('effective') and CBS.optimize(multiply(...)) raise RuntimeError although CBO accepts both.
40. C102: post_process_default clips at the fixed value 1e8 (pdyn.py:24-43); a problem stated in smaller units, with coordinates above 1e8, is silently clipped, so the default dynamic is not unit-free.
41. C103: noise_constr_aniso (hypersurfacecbo.py:153-159) subtracts 2*(sum drift_i x_i)^2 where 2*sum (drift_i x_i)^2 is needed to keep |x|=1 to first order, and it is used on planes and the Stiefel manifold although it is the formula of the sphere; 'constant' noise gets the isotropic correction; on planes the drift is dt*P(consensus) instead of dt*P(consensus-x), so a run in consensus leaves the point of the plane nearest to the origin by a factor 1+dt per step; lamda is accepted and ignored.
42. C104: update_best_cur_particle takes argmin, so among particles of equal energy the one with the smallest index is reported as best (pdyn.py:512-530).
43. C105: AdamCBO.inner_step (adamcbo.py:45-54) does not use dt in the drift term, so without noise the trajectory is the same for every dt and the particles overshoot the consensus point once they are within lamda/2 - eps of it; momentum moves ensembles that have already reached consensus.
44. C106: one NaN objective value (or a batch of +inf values) makes the consensus NaN; nan_to_num (pdyn.py:42) turns all particles of the run into (1e8, ..., 1e8), a consensus state that multiplicative noise never leaves, so the run is lost for the rest of optimize.
45. C109: a CBS run with at most d particles can never sample outside the (N-1)-dimensional affine hull of its initial particles (noise.py:205-241: the noise is sqrt(C) z and C has rank at most N-1); nothing warns about it.
46. C110: because of the sign of the drift (pso.py:112-135, C43) a noise-free PSO run spreads exponentially for every objective until post_process clips it at 1e8; only the noise or the memory can keep particles together.
47. C112: live plotting indexes consensus and drift by num_run although they only have rows for active runs (plotting.py:237-333): after another run has stopped the picture shows another run's consensus or raises IndexError.
48. C113: with the default isotropic noise every extra coordinate enlarges the noise on all others (noise.py:64-119); anisotropic noise is free of this.
49. C116: print_cur_state prints the time after the step together with f_min of the positions before it (pdyn.py:942).
50. C117: history['y'] of MirrorCBO lacks the initial entry that history['x'] has, so equal indices belong to different steps (mirrorcbo.py:276-284); resampling with the default var_name='x' only enters MirrorCBO through the drift, because x is recomputed from y (mirrorcbo.py:293).
51. C118: for particles with two or more axes the kernels Laplace, Constant and InverseQuadratic (axis=-1, polarcbo.py:94-130), update_diff (axis=(-2,-1), pdyn.py:286, 922) with diff_tol, drift_mean (history.py:154), num_eval (objective_handling.py:36) and the f_dim promotions (objective_handling.py:74-99) do not do what they do for vectors; the steps raise or the numbers mean something else.
52. C119: documentation of PolarCBO's kernels (polarcbo.py:166-167, 175-176) and code disagree: InverseQuadratic uses (r/kappa)^2 instead of r^2/kappa, Constant gives e^-1 at distance kappa (and 0, not infinity, beyond), the mode 'alpha' multiplies by alpha, not kappa; dyn.kappa is only read by set_kernel; kappa = 0 gives NaN weights.
53. C120: the default eps = 1e-3 of heavi_side_reg_correction is a fixed energy: rescaling the objective (with alpha rescaled) changes the run; AdamCBO's steps have a fixed length, independent of the scale of the problem.
54. C121: weighted_L2 cannot be used in MirrorCBO with more than a 1 x 1 matrix: grad inserts the new axis at position 2 although ensembles have three axes. With [[a]] the first step maps x to a x even if the update is zero, since grad_conj is not the inverse of grad. It is the only map for which nan_to_num also repairs y.
55. C122: torch versions: seed is accepted and ignored; init_particles ignores device; PolarCBO and HyperSurfaceCBO keep NumPy consensus functions (and PolarCBO its NumPy kernel); RegCombinationCBO loses its own post-processing. HyperSurfaceCBO raises TypeError for compute_consensus.
56. C123: with batch_size 1 and the default partial=True CBO does nothing for ever: every particle is its own consensus.
57. C124: in double precision noise-free CBO stalls at distances of about u|x|/(lamda*dt) instead of converging, and a particle can be moved across the consensus point out of the hull of the ensemble (cbo.py:3-4, 40-50).
58. C125: documented formulas that the code does not compute: Rastrigin (factor 1/n; original formula is Himmelblau's), cross_in_tray (position of + 1), Ackley for A other than 20, snowflake without alpha (objectives.py:305-313, 440, 748, 1067-1074).
59. C126: the docstrings of CBO, CBOMemory and PSO give wrong defaults for dt, sigma, noise, m, lamda_memory and sigma_memory, and document parameters y and v that raise TypeError (cbo.py:19-28, cbo_memory.py:21-37, pso.py:21-44).
60. C128: in live plots of one-dimensional dynamics particles are drawn at their objective value but the consensus point at height 0, plot_drift is silently ignored, and the evaluations made for drawing are not counted in num_f_eval (plotting.py:171-227, 272-304).
61. C129: RegCombinationCBO's constraint step is explicit: with the defaults dt = eps = 0.01 a run in consensus beside a plane jumps from one side of it to the other for ever, with dt > eps it runs away, and it is pushed away from the unit sphere (regcombinationcbo.py:31-38); lamda dt + 2 dt/eps <= 1 makes the violation decrease. DriftConstrainedCBO's linearly implicit step (driftconstrainedcbo.py:13-24) has no such restriction for planes and outside spheres; near the centre of the unit sphere it also moves away from the sphere, because the Hessian of the squared constraint is negative there (constraints.py:86-89, 101-103).
62. C130: MirrorCBO stops as soon as the positions of a run coincide, even if the dual points do not (mirrorcbo.py:286-293): the drift is taken from the positions, so projections that send all dual points to one position end the search. Dual points far outside come back slowly: their particles stay at the boundary for a number of steps that grows with the distance.
