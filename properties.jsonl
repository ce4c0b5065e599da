{"id": "C01", "title": "best_energy is the energy of best_particle (CBO)", "statement": "For CBO, at every point of an optimisation and for every run, either no finite energy has been seen (best_energy is +inf) or evaluating the objective at best_particle gives exactly best_energy. This holds with any mini-batching ('resample' or 'concat', partial or full update), with some runs already terminated, and although entries of dyn.energy may be stale.", "quantifier": "all objectives without NaN values, all initial ensembles, all M, N, all noise draws and batch permutations, all histories of steps", "why_tests_cant": "Stale energies under batching only become visible for particular interleavings of batches, moves and improvements; a test samples a handful of seeds.", "anchors": ["cbx/dynamics/pdyn.py:ParticleDynamic.update_best_cur_particle", "cbx/dynamics/pdyn.py:ParticleDynamic.update_best_particle", "cbx/dynamics/pdyn.py:CBXDynamic.compute_consensus", "cbx/dynamics/cbo.py:CBO.cbo_step"]}
{"id": "C02", "title": "best_energy is the minimum of everything evaluated", "statement": "After k steps of CBO, best_energy[m] equals the minimum of +inf and all objective values computed for run m in those k steps; in particular it never increases and is a lower bound of every energy entry of the run.", "quantifier": "all objectives without NaN, ensembles, batch choices, noise, step counts", "why_tests_cant": "A minimum over a whole execution history cannot be enumerated by example executions.", "anchors": ["cbx/dynamics/pdyn.py:ParticleDynamic.update_best_particle", "cbx/dynamics/pdyn.py:CBXDynamic.post_step"]}
{"id": "C03", "title": "A NaN objective value hides better particles", "statement": "If the objective may return NaN, C01/C02 fail: one NaN energy in a run makes the step ignore all other particles of the run, so best_energy can stay above an energy which was evaluated, and under mini-batching best_particle can later be paired with an energy it does not have. (Refutation of the unrestricted claim, with a concrete execution.)", "quantifier": "existence of an objective, ensemble and batch schedule", "why_tests_cant": "A test passes unless it hits the NaN on the one step that matters.", "anchors": ["cbx/dynamics/pdyn.py:ParticleDynamic.update_best_cur_particle"]}
{"id": "C04", "title": "optimize runs exactly max_it iterations", "statement": "Starting from iteration counter it0 with only the criterion max_it = K, optimize performs exactly max(0, K - it0) steps, leaves dyn.it = max(it0, K), and with further criteria it never performs more. With max_it = None (and no other criterion) it never stops.", "quantifier": "all K, all starting states, all schedulers, all oracles", "why_tests_cant": "Tests fix one K; non-termination is not observable by a test.", "anchors": ["cbx/dynamics/pdyn.py:ParticleDynamic.optimize", "cbx/dynamics/pdyn.py:ParticleDynamic.terminate", "cbx/utils/termination.py:max_it_term"]}
{"id": "C05", "title": "Active runs are exactly the runs meeting no criterion, and optimize stops iff there are none", "statement": "After each call of terminate() the active runs are, in increasing order, exactly the runs for which no termination criterion holds; terminate() returns true iff every run meets some criterion; term_reason[m] lists exactly the indices of the criteria which held the last time run m met one.", "quantifier": "all criteria lists, all states, all M", "why_tests_cant": "Correctness for every combination of per-run criteria needs a proof over arbitrary boolean matrices.", "anchors": ["cbx/dynamics/pdyn.py:ParticleDynamic.select_active_runs", "cbx/utils/termination.py"]}
{"id": "C06", "title": "A terminated run is frozen (CBO)", "statement": "One CBO step leaves position, energies, best energy/particle and evaluation count of every terminated run unchanged (positions up to the post-processing that is idempotent), whatever happens in the other runs.", "quantifier": "all active sets, batch settings, noise draws, number of runs", "why_tests_cant": "A test would have to cover every pattern of active runs and batch settings.", "anchors": ["cbx/dynamics/cbo.py:CBO.cbo_step", "cbx/dynamics/pdyn.py:CBXDynamic.set_batch_idx_unbatched", "cbx/dynamics/pdyn.py:CBXDynamic.set_batch_idx_batched"]}
{"id": "C07", "title": "Terminated runs stay terminated (CBO, built-in criteria)", "statement": "With the built-in per-run criteria (max_it, max_time, energy_tol, diff_tol, max_eval), positive tolerances and dt >= 0, the set of active runs never grows during an optimisation.", "quantifier": "all states reachable by steps, all criteria parameters, all oracles", "why_tests_cant": "Monotonicity along every execution is an inductive statement.", "anchors": ["cbx/dynamics/pdyn.py:ParticleDynamic.select_active_runs", "cbx/utils/termination.py"]}
{"id": "C08", "title": "M runs in one array equal M separate runs (CBO)", "statement": "Stepping an M-run CBO without drift correction and looking at one active run gives the same positions, energies, best values, consensus, alpha and evaluation counts as stepping a one-run CBO with that run's data, noise and batch permutation. Runs never influence one another.", "quantifier": "all M, N, all runs m, all active sets, all row-wise consensus functions, all particle-wise noise", "why_tests_cant": "Needs all interactions between runs to be excluded, for all data.", "anchors": ["cbx/dynamics/cbo.py:CBO.cbo_step", "cbx/dynamics/pdyn.py:CBXDynamic.compute_consensus"]}
{"id": "C09", "title": "CBO.step never raises for any active set or batch setting", "statement": "With no correction and particle-wise noise, the index bookkeeping of CBO (Ellipsis, active-run index, batched index, partial or full update) always yields compatible array shapes, so a step cannot fail, whichever subset of runs is still active.", "quantifier": "all M, N, batch sizes, active subsets, permutations", "why_tests_cant": "Shape errors depend on combinations of batch and termination patterns that only show up late in a run.", "anchors": ["cbx/dynamics/pdyn.py:CBXDynamic.set_batch_idx_batched", "cbx/dynamics/cbo.py:CBO.cbo_step"]}
{"id": "C10", "title": "The evaluation budget max_eval is never exceeded (CBO)", "statement": "With the max_eval criterion and no correction, num_f_eval[m] never exceeds max_eval for any run during optimize, provided it did not at the start; and a run that stops only for this reason could not have afforded another step.", "quantifier": "all budgets, batch sizes, numbers of runs and iterations", "why_tests_cant": "Off-by-one budget errors show only for particular divisibility relations of budget and batch size.", "anchors": ["cbx/utils/termination.py:max_eval_term", "cbx/dynamics/pdyn.py:CBXDynamic.eval_f"]}
{"id": "C11", "title": "The evaluation counters add up to the real number of evaluations (CBO)", "statement": "With no correction the sum of num_f_eval over runs always equals the number of points on which the wrapped objective was evaluated (dyn.f.num_eval).", "quantifier": "all histories of steps, active sets and batch settings", "why_tests_cant": "Equality along every history is an invariant.", "anchors": ["cbx/dynamics/pdyn.py:CBXDynamic.eval_f", "cbx/utils/objective_handling.py:cbx_objective"]}
{"id": "C12", "title": "Heaviside correction miscounts evaluations", "statement": "With correction='heavi_side' or 'heavi_side_reg' and at least two runs the counters no longer add up: a step with A active runs evaluates the objective at A consensus points but adds A to the counter of every one of the M runs (expected: 1 per active run). Exact amount proved; equality holds iff M = 1 (or no active run).", "quantifier": "all M, N, active sets", "why_tests_cant": "The repository's counting test uses the default correction only.", "anchors": ["cbx/correction.py:heavi_side_correction.__call__"]}
{"id": "C13", "title": "Batches are valid: right size, in range, no duplicates ('resample')", "statement": "Every batch drawn has exactly min(size, N) indices per run, all in 0..N-1, and in the default 'resample' mode without duplicates; there are always enough indices left to serve the batch.", "quantifier": "all N, batch sizes 1..N, all permutation sequences, all numbers of steps", "why_tests_cant": "Invariant over an unbounded sequence of refills.", "anchors": ["cbx/dynamics/pdyn.py:CBXDynamic.set_batch_idx_batched", "cbx/dynamics/pdyn.py:CBXDynamic.init_batch_idx"]}
{"id": "C14", "title": "Batch epochs: 'resample' uses every particle at most once per epoch, 'concat' is fair", "statement": "In 'resample' mode the floor(N/size) batches between two refills are pairwise disjoint (and cover all particles exactly once when size divides N). In 'concat' mode, after k batches every particle of a run has been used floor(k*size/N) or ceil(k*size/N) times.", "quantifier": "all N, sizes, k, permutations", "why_tests_cant": "Counting over an unbounded number of batches.", "anchors": ["cbx/dynamics/pdyn.py:CBXDynamic.set_batch_idx_batched"]}
{"id": "C15", "title": "Positions are finite and bounded after each step", "statement": "After every step with the default post-processing all coordinates are finite and lie in [-max_thresh, max_thresh]; NaN becomes max_thresh, +inf max_thresh, -inf -max_thresh, and coordinates already in range are unchanged; post-processing twice is post-processing once.", "quantifier": "all float values including NaN and infinities, all thresholds >= 0", "why_tests_cant": "Tests cannot enumerate float payloads.", "anchors": ["cbx/dynamics/pdyn.py:post_process_default"]}
{"id": "C16", "title": "post_process_default(copy_nan_to_num=True) keeps NaN", "statement": "With copy_nan_to_num=True (as used by RegCombinationCBO) the NaN replacement is computed and thrown away, so NaN coordinates survive post-processing. C15 fails for this configuration; exact behaviour: NaN in = NaN out, everything else as in C15.", "quantifier": "all inputs; existence of a NaN input", "why_tests_cant": "Only visible when NaN occurs.", "anchors": ["cbx/dynamics/pdyn.py:post_process_default", "cbx/dynamics/regcombinationcbo.py"]}
{"id": "C17", "title": "History has one entry per save_int iterations", "statement": "After n steps from construction each recorded quantity has ceil(n/save_int) entries (history['x'] one more), and entry k is the value at the end of step k*save_int (0-based).", "quantifier": "all n, save_int >= 1, all tracked names", "why_tests_cant": "Arithmetic over all n and save_int.", "anchors": ["cbx/dynamics/pdyn.py:ParticleDynamic.track", "cbx/dynamics/pdyn.py:ParticleDynamic.init_history", "cbx/utils/history.py"]}
{"id": "C18", "title": "history['x'][0] is overwritten by the first CBO step", "statement": "The first entry of history['x'] should be the initial ensemble. The entry is the live array, and the first in-place update of CBO changes it: after one step it holds the updated positions whenever they differ. For dynamics which rebind x (HyperSurfaceCBO) it stays intact.", "quantifier": "all ensembles and updates; existence of a violating execution", "why_tests_cant": "Aliasing is invisible to tests that compare lengths or shapes.", "anchors": ["cbx/utils/history.py:track_x.init_history", "cbx/dynamics/cbo.py:CBO.cbo_step"]}
{"id": "C19", "title": "Reusing track_args with extra_tracks duplicates records", "statement": "Building a second dynamic with the same track_args dictionary should give it independent, identical tracking. When 'extra_tracks' is given the list is extended in place, so the k-th dynamic built registers every named track k times and records each entry k times.", "quantifier": "all k, all lists of names", "why_tests_cant": "Tests build each dynamic with fresh arguments.", "anchors": ["cbx/dynamics/pdyn.py:ParticleDynamic.init_history"]}
{"id": "C20", "title": "reset() does not restore the initial state", "statement": "After reset() a dynamic should behave like a freshly constructed one. reset restores it = 0, t = 0 and an empty history, but forgets the requested track names and save_int, and keeps best_energy, num_f_eval, alpha, positions and optimiser moments; hence best_energy after reset can be unattainable by the new ensemble.", "quantifier": "all states", "why_tests_cant": "Requires comparing complete states.", "anchors": ["cbx/dynamics/pdyn.py:ParticleDynamic.reset", "cbx/dynamics/pdyn.py:CBXDynamic.reset"]}
{"id": "C21", "title": "Time and iteration counters", "statement": "After n steps with constant dt: it = it0 + n and t = t0 + n*dt; with max_time T and dt > 0 optimize stops after exactly the least n with t0 + n*dt >= T.", "quantifier": "all n, dt, T", "why_tests_cant": "All n.", "anchors": ["cbx/dynamics/pdyn.py:CBXDynamic.post_step", "cbx/utils/termination.py:max_time_term"]}
{"id": "C22", "title": "multiply scheduler: closed form and cap", "statement": "After n updates multiply(name, factor, maximum) has set the parameter to min(maximum, factor^n * v0) when factor >= 1 and v0 >= 0; the parameter never exceeds maximum after an update, for any factor; other parameters are untouched; the declared minimum is not enforced.", "quantifier": "all n, factors, maxima, initial values, array shapes", "why_tests_cant": "All n and parameter values.", "anchors": ["cbx/scheduler.py:multiply", "cbx/scheduler.py:param_update.ensure_max"]}
{"id": "C23", "title": "Scheduler lists compose in order", "statement": "scheduler([u1,...,uk]).update(dyn) has the effect of the updates one after the other; the empty scheduler (optimize(sched=None)) changes nothing; nesting schedulers is the same as concatenating their lists.", "quantifier": "all lists of updates", "why_tests_cant": "All lists.", "anchors": ["cbx/scheduler.py:scheduler.update", "cbx/dynamics/pdyn.py:ParticleDynamic.optimize"]}
{"id": "C24", "title": "Bisection stays in its bracket and stops in time", "statement": "bisection_solve evaluates f at most max_it + 1 times, returns for each run a value in [low, high], and if it stops before max_it is exceeded the residual |f(x)| <= thresh for every run.", "quantifier": "all functions f, brackets, max_it, thresholds, numbers of runs", "why_tests_cant": "All functions f.", "anchors": ["cbx/scheduler.py:bisection_solve"]}
{"id": "C25", "title": "Bisection accuracy", "statement": "For one run and a non-increasing f with a root in the bracket, after j evaluations the returned value is within (high-low)/2^j of a root; for several runs each bracket still contains its root at all times.", "quantifier": "all non-increasing f, brackets, number of iterations", "why_tests_cant": "All functions.", "anchors": ["cbx/scheduler.py:bisection_solve"]}
{"id": "C26", "title": "Bisection runs are not independent", "statement": "The root computed for one run should not depend on the other runs. It does: a run that has met the tolerance is moved to a new midpoint while other runs are unfinished, and may be returned with a residual above the tolerance although it had converged.", "quantifier": "existence of functions and brackets for two runs", "why_tests_cant": "Tests check the residual of a single family of functions.", "anchors": ["cbx/scheduler.py:bisection_solve"]}
{"id": "C27", "title": "effective_sample_size cannot reach small alpha", "statement": "The scheduler promises alpha with J_eff(alpha) = eta*N up to 1e-2. With the default bracket [1e-5, 1e5] and 15 iterations the value returned is always at least 1e5/2^16 > 1.5, so for energies whose solution is smaller the promise fails, by any margin below eta*N - 1.", "quantifier": "all energies and eta; existence of failing energies", "why_tests_cant": "The bound holds for all energies; failing energies must be exhibited with a proof about exp.", "anchors": ["cbx/scheduler.py:effective_sample_size.update", "cbx/scheduler.py:bisection_solve"]}
{"id": "C28", "title": "Effective sample size lies in [1, N] and is non-increasing in alpha", "statement": "J_eff(alpha) = (sum w)^2 / sum w^2 computed by eff_sample_size_gap (plus eta*N) lies between 1 and N, is N for alpha = 0, is invariant under energy shifts, and is non-increasing for alpha >= 0 (so bisection is applicable).", "quantifier": "all finite energies, N >= 1, all alpha >= 0", "why_tests_cant": "Analytic inequality over reals.", "anchors": ["cbx/scheduler.py:eff_sample_size_gap"]}
{"id": "C29", "title": "The consensus is the Gibbs-weighted mean", "statement": "compute_consensus_default returns sum x_n e^{-alpha E_n} / sum e^{-alpha E_n}; its weights are positive, sum to one (so the optional coefficient check never raises) and decrease with energy; particles with energy +inf get weight 0 as long as one energy is finite.", "quantifier": "all finite or +inf energies, all positions, alpha > 0", "why_tests_cant": "Real analysis over all inputs; tests compare at tolerance on samples.", "anchors": ["cbx/dynamics/pdyn.py:compute_consensus_default"]}
{"id": "C30", "title": "The consensus lies in the hull of the ensemble", "statement": "Each coordinate of the consensus lies between the minimum and maximum of that coordinate over the (batch) particles, and the consensus satisfies every linear inequality satisfied by all particles; if all particles coincide it is that point.", "quantifier": "all ensembles and energies", "why_tests_cant": "All inputs.", "anchors": ["cbx/dynamics/pdyn.py:compute_consensus_default"]}
{"id": "C31", "title": "Consensus invariances", "statement": "The consensus is unchanged by adding a constant to all energies, by permuting particles, and moves along with translations and linear maps of the particles; with alpha = 0 it is the arithmetic mean. The rescaled variant of objective values (compute_consensus_rescale) gives the same point.", "quantifier": "all inputs, shifts, permutations", "why_tests_cant": "All inputs.", "anchors": ["cbx/dynamics/pdyn.py:compute_consensus_default", "cbx/dynamics/hypersurfacecbo.py:compute_consensus_rescale"]}
{"id": "C32", "title": "Laplace principle", "statement": "The weight of a particle is at most e^{-alpha (E_n - E_min)}, the distance of each consensus coordinate from that of a unique best particle is at most diameter * (N-1) e^{-alpha gap}, and the consensus converges to the best particle as alpha grows.", "quantifier": "all ensembles with a unique minimiser, all alpha", "why_tests_cant": "Limit statement.", "anchors": ["cbx/dynamics/pdyn.py:compute_consensus_default"]}
{"id": "C33", "title": "Polar consensus", "statement": "Each particle's polarised consensus is a convex combination of the ensemble; with a constant kernel (kappa = infinity) it equals the ordinary consensus for every particle; kernels are symmetric, take values in [0,1], and neg_log is -log of the kernel.", "quantifier": "all ensembles, energies, kernels shipped", "why_tests_cant": "All inputs.", "anchors": ["cbx/dynamics/polarcbo.py"]}
{"id": "C34", "title": "PolarCBO with covariance noise works only for one run (or M = N)", "statement": "PolarCBO(noise='covariance') should work for any number of runs. The covariance update broadcasts arrays of shapes (M,N,N) and (M,N): it raises unless M = 1 or M = N, and for M = N > 1 it mixes energies of different runs.", "quantifier": "all M, N >= 1", "why_tests_cant": "Shape law over all M, N.", "anchors": ["cbx/dynamics/polarcbo.py:PolarCBO.update_covariance"]}
{"id": "C35", "title": "Noise-free CBO contracts towards consensus", "statement": "With sigma = 0 (unbatched, no correction) one step maps differences of particles of a run by exactly the factor (1 - lamda*dt), so after n steps all pairwise differences are (1-lamda*dt)^n times the initial ones; if 0 <= lamda*dt <= 1 all particles stay in the coordinate box of the initial ensemble for ever.", "quantifier": "all objectives, ensembles, alpha schedules, n", "why_tests_cant": "Statement over all n and objectives.", "anchors": ["cbx/dynamics/cbo.py:CBO.cbo_step", "cbx/dynamics/cbo.py:cbo_update"]}
{"id": "C36", "title": "Consensus states are absorbing for multiplicative noise", "statement": "If all particles of a run coincide, CBO with isotropic, anisotropic or covariance noise leaves them where they are for ever, whatever the noise draws; with anisotropic noise a coordinate on which all particles agree never changes. With constant noise this fails.", "quantifier": "all noise draws, steps, objectives", "why_tests_cant": "All draws.", "anchors": ["cbx/noise.py", "cbx/dynamics/cbo.py:CBO.cbo_step"]}
{"id": "C37", "title": "Heaviside correction only stops or scales the drift", "statement": "With 'heavi_side' a particle whose energy is not above the energy of the consensus does not move at all (isotropic or anisotropic noise), the others move as without correction; with 'heavi_side_reg' (unbatched) the drift is scaled by a factor strictly between 0 and 1, above 1/2 iff the particle is worse than the consensus, tending to the Heaviside factor as eps -> 0 for particles not level with the consensus (level particles keep the factor 1/2 for every eps, where the Heaviside factor is 0).", "quantifier": "all ensembles, objectives, noise, eps > 0", "why_tests_cant": "All inputs.", "anchors": ["cbx/correction.py", "cbx/dynamics/cbo.py:CBO.cbo_step"]}
{"id": "C38", "title": "Energy-shift and translation invariance of whole CBO runs", "statement": "Adding a constant to the objective does not change the trajectory of CBO; translating objective and initial ensemble translates the trajectory (no clipping active). This extends to whole sessions (construction, steps, termination checks, parameter changes, resets) with correction terms, mini-batches and a post-processing that commutes with the translation, including which exception is raised.", "quantifier": "all objectives, constants, translations, n steps, noise draws", "why_tests_cant": "Relates pairs of executions of arbitrary length.", "anchors": ["cbx/dynamics/cbo.py:CBO.cbo_step", "cbx/dynamics/pdyn.py:compute_consensus_default"]}
{"id": "C39", "title": "compute_mat_sqrt returns the PSD square root", "statement": "Given an orthogonal eigendecomposition of a symmetric matrix A with non-negative eigenvalues, compute_mat_sqrt(A) is symmetric, positive semidefinite and its square is A; in general its square is the positive part of A. The weighted covariance passed to it is symmetric positive semidefinite. One infinite or NaN entry makes the whole result NaN.", "quantifier": "all dimensions d, all matrices with eigendecompositions, all ensembles", "why_tests_cant": "All dimensions and matrices.", "anchors": ["cbx/dynamics/pdyn.py:compute_mat_sqrt", "cbx/dynamics/pdyn.py:CBXDynamic.update_covariance"]}
{"id": "C40", "title": "CBOMemory and PSO: memory holds the best visited point of each particle", "statement": "At all times energy[m,n] is the objective value at the memory y[m,n], it never increases, and it is the minimum of the objective over all points particle n of run m has been evaluated at.", "quantifier": "all histories, objectives without NaN, noise", "why_tests_cant": "Invariant over histories.", "anchors": ["cbx/dynamics/cbo_memory.py", "cbx/dynamics/pso.py"]}
{"id": "C41", "title": "CBOMemory returns a particle that need not attain best_energy", "statement": "C01 fails for CBOMemory: in the first step best_particle is taken from the current positions while the energy belongs to the memory, so optimize can return a point whose objective value is far above best_energy.", "quantifier": "existence of an execution", "why_tests_cant": "Needs the improbable ordering of energies in step one.", "anchors": ["cbx/dynamics/cbo_memory.py", "cbx/dynamics/pdyn.py:ParticleDynamic.update_best_cur_particle"]}
{"id": "C42", "title": "PSO returns a particle that need not attain best_energy", "statement": "C01 fails for PSO: energies are evaluated after the move, best_particle is taken from before the move.", "quantifier": "existence of an execution", "why_tests_cant": "The repository's tests never compare both.", "anchors": ["cbx/dynamics/pso.py", "cbx/dynamics/pdyn.py:ParticleDynamic.update_best_cur_particle"]}
{"id": "C43", "title": "PSO drift points away from the consensus", "statement": "Without noise and memory drift, PSO should move particles towards the consensus. From rest one step multiplies the distance to the consensus by 1 + lamda*dt^2/(m + gamma*dt) > 1.", "quantifier": "all ensembles, positive parameters", "why_tests_cant": "Sign errors are masked by noise in end-to-end tests.", "anchors": ["cbx/dynamics/pso.py"]}
{"id": "C44", "title": "CBOMemory and PSO fail once runs terminate at different times", "statement": "A step of CBOMemory or PSO with some but not all of M >= 2 runs active, or with a partially updated batch smaller than N, raises a shape error (while CBO handles both, C09).", "quantifier": "all M >= 2, N, active subsets; all batch sizes < N", "why_tests_cant": "Depends on termination patterns.", "anchors": ["cbx/dynamics/cbo_memory.py", "cbx/dynamics/pso.py"]}
{"id": "C45", "title": "Terminated runs are moved by another run's consensus (DriftConstrainedCBO, HyperSurfaceCBO, RegCombinationCBO)", "statement": "C06/C08 fail for these dynamics (with sigma_indep = 0 and penalty weights not changed by a scheduler): when exactly one of M >= 2 runs is still active, its consensus is broadcast to all runs and terminated runs move; with 1 < A < M active runs the step raises.", "quantifier": "all M >= 2, A, N; existence of a moved terminated run", "why_tests_cant": "Depends on termination patterns.", "anchors": ["cbx/dynamics/driftconstrainedcbo.py", "cbx/dynamics/hypersurfacecbo.py", "cbx/dynamics/regcombinationcbo.py"]}
{"id": "C46", "title": "DriftConstrainedCBO without constraints never moves", "statement": "With no constraints DriftConstrainedCBO should reduce to CBO. Its implicit solve returns 0 for an empty constraint list, so no particle ever moves.", "quantifier": "all objectives, ensembles, parameters (sigma_indep = 0), steps", "why_tests_cant": "Tests only call the class with constraints.", "anchors": ["cbx/constraints.py:MultiConstraint.solve_Id_hessian_squared_sum", "cbx/dynamics/driftconstrainedcbo.py"]}
{"id": "C47", "title": "energy_stagnation cannot be used with several runs", "statement": "The criterion assigns objective values of shape (M,1) to a slot of shape (M,): it raises for every M >= 2. For M = 1 it fires exactly when the standard deviation of the last `patience` consensus energies is below the threshold, and never before `patience` energies were recorded.", "quantifier": "all M, patience, thresholds, sequences of energies", "why_tests_cant": "All sequences; tests use M = 1.", "anchors": ["cbx/utils/termination.py:energy_stagnation_term"]}
{"id": "C48", "title": "AdamCBO bias correction", "statement": "The moment buffers equal the exponentially weighted sums of the drifts the particle has received (any batch setting); for constant drift the bias-corrected moments equal the drift and its square at every iteration as long as the particle received one drift per iteration (full updates); the second moment is non-negative; a step never raises. With partial updates from mini-batches, and after reset() (it = 0, moments kept), the correction is wrong.", "quantifier": "all drift sequences, betas in [0,1), all n", "why_tests_cant": "All n and sequences.", "anchors": ["cbx/dynamics/adamcbo.py", "cbx/dynamics/pdyn.py:ParticleDynamic.reset"]}
{"id": "C49", "title": "Mirror maps: grad_conj inverts grad", "statement": "grad_conj(grad(x)) = x for ElasticNet (delta > 0, lamda >= 0), L2 (lamda != 0), the non-smooth barrier on (-1,1), the log-barrier on (-1,1) except 0, and the entropy on the simplex; for ProjectionBall on the ball, etc.; for Entropy it is x + EPS.", "quantifier": "all points of the stated domains, all parameters", "why_tests_cant": "Real-algebraic identities on whole domains.", "anchors": ["cbx/dynamics/mirrorcbo.py"]}
{"id": "C50", "title": "Mirror maps land in the constraint set and projections are nearest-point maps", "statement": "grad_conj of ProjectionBall, ProjectionHyperplane (with a full normal vector), ProjectionSphere, EntropySimplex, LogBarrierBox (non-zero dual point) and NonsmoothBarrier returns feasible points; projections are idempotent and nearest-point.", "quantifier": "all dual points, dimensions, radii, centres", "why_tests_cant": "All points.", "anchors": ["cbx/dynamics/mirrorcbo.py"]}
{"id": "C51", "title": "Mirror-map defects", "statement": "ProjectionSquare(r) leaves the square unless r = 1; ProjectionHyperplane() with default normal misses its hyperplane for every d >= 2; LogBarrierBox.grad_conj(0) is NaN, so a particle at the centre is thrown to max_thresh.", "quantifier": "all r, d; concrete points", "why_tests_cant": "Boundary values not covered by sampling.", "anchors": ["cbx/dynamics/mirrorcbo.py"]}
{"id": "C52", "title": "MirrorCBO iterates are feasible after every step and L2 MirrorCBO is CBO", "statement": "After any positive number of MirrorCBO steps every particle of every run (moved or not, terminated or not) is feasible for the maps of C50 (before clipping); with the default map MirrorCBO and CBO trajectories coincide.", "quantifier": "all steps, noise, batches", "why_tests_cant": "Invariant over executions.", "anchors": ["cbx/dynamics/mirrorcbo.py:mirror_step"]}
{"id": "C53", "title": "HyperSurfaceCBO keeps particles on the surface", "statement": "After each step all particles lie on the sphere, plane or Stiefel manifold (SVD contract), and the tangent projections map into the tangent space and fix it.", "quantifier": "all points, directions, dimensions", "why_tests_cant": "All points.", "anchors": ["cbx/dynamics/hypersurfacecbo.py"]}
{"id": "C54", "title": "Constraint derivatives are correct", "statement": "grad, grad_squared and hessian_squared of sphere, plane and quadric (symmetric A) constraints are the derivatives of the constraint function and its square; for non-symmetric A the quadric gradient is wrong.", "quantifier": "all points, directions, dimensions, parameters", "why_tests_cant": "Derivative at all points.", "anchors": ["cbx/constraints.py"]}
{"id": "C55", "title": "Implicit constraint steps solve their equations", "statement": "solve_Id_plus_call_grad returns y with y + 2*factor*c(x)*grad c(y) = x_tilde for sphere, plane and quadric whenever the system is regular; for the sphere it is singular exactly when |x|^2 = r^2 - 1/(4 factor), which occurs iff 4*factor*r^2 >= 1; feasible points are not changed. MultiConstraint: the linearised solvers solve (I + factor H) y = x_tilde with the Hessian of the sum of the squared constraints (or sum of c(x) Hess c) for every list of constraints.", "quantifier": "all x, x_tilde, factors, dimensions", "why_tests_cant": "All points.", "anchors": ["cbx/constraints.py"]}
{"id": "C56", "title": "Regularisation scheduler bounds", "statement": "After each update lamda lies in [0, lamda_max]; lamda grows by factor_lamda exactly for runs with mean regulariser above 1/sqrt(theta); theta, however, is not kept below theta_max: it exceeds every bound if the regulariser vanishes.", "quantifier": "all sequences of means, all n", "why_tests_cant": "Unbounded growth is a statement over all n.", "anchors": ["cbx/regularizers.py:regularization_paramter_scheduler"]}
{"id": "C57", "title": "Objective promotion is pointwise", "statement": "An objective given as '1D', '2D' or '3D' function is evaluated pointwise: the promoted function at an (M,N,d) array has at [m,n] the value of f at x[m,n]; its evaluation counter increases by M*N; the constructor rejects objectives whose result is not one number per particle.", "quantifier": "all M, N, d >= 1, all f", "why_tests_cant": "Index arithmetic for all shapes.", "anchors": ["cbx/utils/objective_handling.py", "cbx/dynamics/pdyn.py:ParticleDynamic.check_f_dims"]}
{"id": "C58", "title": "Ensemble shape normalisation", "statement": "A 1-d array of length d becomes one run with one particle, a 2-d array (N,d) one run, higher dimensions are kept; no coordinate is lost, reordered or duplicated; the user's array is never modified afterwards.", "quantifier": "all shapes", "why_tests_cant": "All shapes.", "anchors": ["cbx/dynamics/pdyn.py:ParticleDynamic.init_x"]}
{"id": "C59", "title": "loss_update_resampling fires after exactly wait_thresh stagnating calls", "statement": "A run is resampled at call k iff the number of calls since its last strict improvement of best_energy (or since the start) is a positive multiple of wait_thresh.", "quantifier": "all sequences of best energies, all thresholds >= 1", "why_tests_cant": "All sequences.", "anchors": ["cbx/utils/resampling.py:loss_update_resampling"]}
{"id": "C60", "title": "consensus_stagnation ignores its patience at the start", "statement": "A run should be resampled only after `patience` small consensus updates. It is resampled as soon as all recorded updates (possibly only one) are small; from `patience` updates on the rule is as documented. patience = 0 means the whole history.", "quantifier": "all sequences of update sizes, all patience", "why_tests_cant": "All sequences.", "anchors": ["cbx/utils/resampling.py:consensus_stagnation"]}
{"id": "C61", "title": "Resampling touches only selected runs and counts once", "statement": "resampling.__call__ changes positions only of runs selected by some rule, adds one to num_resampling for each selected run even if several rules select it.", "quantifier": "all rule sets, selections, states", "why_tests_cant": "All selections.", "anchors": ["cbx/utils/resampling.py:resampling"]}
{"id": "C62", "title": "Success evaluation is the intersection of the criteria", "statement": "evaluation(criteria)(dyn) reports as successful exactly the runs passing every criterion, rate = successes / M in [0,1]; dist_to_min_success and value_success are the stated threshold tests per run.", "quantifier": "all criteria lists, all results", "why_tests_cant": "All sets.", "anchors": ["cbx/utils/success.py"]}
{"id": "C63", "title": "Benchmark objectives attain their documented minimum", "statement": "For three_hump_camel, Rosenbrock, Himmelblau, Rastrigin, Ackley, Easom, snowflake and Quadratic the value at each listed minimiser is the stated minimum and no point of the domain has a lower value.", "quantifier": "all points of R^d, all d", "why_tests_cant": "Global minimality over R^d.", "anchors": ["cbx/objectives.py"]}
{"id": "C64", "title": "Wrong documented minima", "statement": "Bukin6.minima lists (0,0) although its value there is 0.1 > 0 = value at (-10,1); drop_wave has value -2 < -1 at its documented minimum; Himmelblau.minima ignore `factor`.", "quantifier": "concrete points", "why_tests_cant": "The tests evaluate shapes only.", "anchors": ["cbx/objectives.py"]}
{"id": "C65", "title": "Flattening network parameters is lossless", "statement": "The slices recorded by get_param_properties partition the flat vector in order; flatten_parameters followed by eval_model's slicing returns every parameter tensor unchanged, for any number and shape of parameters.", "quantifier": "all parameter lists", "why_tests_cant": "All lists of shapes.", "anchors": ["cbx/utils/torch_utils.py"]}
{"id": "C66", "title": "Plotting a recorded history never indexes out of range; y_min = 0 is ignored", "statement": "run_plots accesses only recorded entries for any history produced by tracking with at least one step (all runs active), but never shows the last one; once runs have terminated, the consensus rows are those of the active runs and plotting raises or shows another run; contour_2D replaces an explicit y_min = 0 or y_max = 0 by x_min / x_max.", "quantifier": "all history lengths, plot frequencies", "why_tests_cant": "All lengths.", "anchors": ["cbx/plotting.py"]}
{"id": "C67", "title": "Name dispatch", "statement": "get_noise, get_correction, select_term, get_constraints return the component for each documented name and raise for unknown names; the documented correction name 'none' and noise None are rejected.", "quantifier": "all strings", "why_tests_cant": "All strings.", "anchors": ["cbx/noise.py:get_noise", "cbx/correction.py:get_correction", "cbx/utils/termination.py:select_term", "cbx/dynamics/pdyn.py:CBXDynamic.set_noise"]}
{"id": "C68", "title": "Saved consensus evaluation points match the energies", "statement": "With save_consensus_eval_points=True, after every step and for every run and particle either energy[m,n] is still +inf or the objective at consensus_eval_points[m,n] is energy[m,n] - although positions move on and batches refresh only some entries.", "quantifier": "all executions of CBO with any batching and termination", "why_tests_cant": "Staleness depends on interleavings of batches and terminations.", "anchors": ["cbx/dynamics/pdyn.py:CBXDynamic.maybe_save_consensus_eval_points", "cbx/dynamics/pdyn.py:CBXDynamic.compute_consensus"]}
{"id": "C69", "title": "Heaviside correction raises once runs terminate at different times", "statement": "With correction='heavi_side' or 'heavi_side_reg' a step raises a shape error as soon as some but not all of the runs have terminated, and for every partially updated mini-batch smaller than N; in all other cases it does not raise.", "quantifier": "all reachable states, M, N, batch sizes", "why_tests_cant": "Needs a particular interleaving of terminations.", "anchors": ["cbx/correction.py:heavi_side_correction.__call__", "cbx/dynamics/pdyn.py:CBXDynamic.correction"]}
{"id": "C70", "title": "PolarCBO with full update from mini-batches raises", "statement": "With one consensus point per batch particle (PolarCBO), batch_partial=False and 1 < batch size < N a step cannot subtract the consensus from the full ensemble and raises; with partial update it works (C09).", "quantifier": "all reachable states, M, N, batch sizes", "why_tests_cant": "Combination of three options.", "anchors": ["cbx/dynamics/polarcbo.py:PolarCBO", "cbx/dynamics/pdyn.py:CBXDynamic.set_batch_idx_batched"]}
{"id": "C71", "title": "Covariance noise raises once runs terminate at different times", "statement": "CBO and CBS with noise='covariance' or 'sampling' should keep working when some runs have terminated or with mini-batches. The covariance update uses the energies of all runs and particles, so a step works exactly if all runs are active and the drift has all particles (or exactly one).", "quantifier": "all M, N, numbers of active runs, batch sizes, values", "why_tests_cant": "Shape law; needs runs terminating at different times.", "anchors": ["cbx/dynamics/pdyn.py:CBXDynamic.update_covariance", "cbx/noise.py:covariance_noise"]}
{"id": "C72", "title": "Rotation invariance with isotropic noise", "statement": "With constant or isotropic noise, applying an isometry of the space to the objective, the initial ensemble and the noise draws applies it to the whole CBO trajectory: positions, consensus and best points are the images, energies, counters and termination are the same; the same holds for whole sessions with correction terms and a post-processing that commutes with the isometry, including which exception is raised. With anisotropic noise it is false.", "quantifier": "all objectives, isometries, executions, draws", "why_tests_cant": "Relates pairs of executions of arbitrary length.", "anchors": ["cbx/noise.py", "cbx/dynamics/cbo.py:CBO.cbo_step"]}
{"id": "C73", "title": "ensemble_update_resampling moves terminated runs", "statement": "A terminated run should keep its particles. ensemble_update_resampling selects every run whose last update is below the threshold, and the last update of a terminated run is zero, so each later call adds noise to its particles.", "quantifier": "all executions, terminated runs, thresholds, draws", "why_tests_cant": "Needs runs terminating at different times.", "anchors": ["cbx/utils/resampling.py:ensemble_update_resampling", "cbx/dynamics/pdyn.py:ParticleDynamic.post_step"]}
{"id": "C74", "title": "The best consensus is attributed to the wrong run", "statement": "With track_best_consensus the resampling object should store the consensus of the selected runs. The consensus array has one row per active run but is indexed with the numbers of the runs, so after the first termination a run gets the consensus of another one, or the call raises IndexError. While all runs are active the stored point is the consensus of least energy over the calls that selected the run.", "quantifier": "all states, selections", "why_tests_cant": "Needs runs terminating at different times.", "anchors": ["cbx/utils/resampling.py:resampling._track_best_consensus"]}
{"id": "C75", "title": "regularize_objective only works for the number of runs of its first call", "statement": "A regularised objective should be f + lamda reg^p in every evaluated point. This holds for ensembles with the number M of runs of the first call; with 1 < A < M runs (after terminations) the call raises, with one run it returns the values of M runs.", "quantifier": "all ensembles, objectives, regularisers, M, A, N", "why_tests_cant": "Needs runs terminating at different times.", "anchors": ["cbx/regularizers.py:regularize_objective"]}
{"id": "C76", "title": "Best particle bookkeeping of the CBO variants", "statement": "In every execution of MirrorCBO, AdamCBO, DriftConstrainedCBO (sigma_indep = 0), HyperSurfaceCBO and RegCombinationCBO (penalty weights not changed by a scheduler), best_energy[m] is the minimum of the objective over all points run m has evaluated and best_particle[m] is one of these points with this value.", "quantifier": "all objectives without NaN, executions, parameters, mirror maps, constraints, surfaces", "why_tests_cant": "Invariant over executions of arbitrary length.", "anchors": ["cbx/dynamics/mirrorcbo.py", "cbx/dynamics/adamcbo.py", "cbx/dynamics/driftconstrainedcbo.py", "cbx/dynamics/hypersurfacecbo.py", "cbx/dynamics/regcombinationcbo.py", "cbx/dynamics/pdyn.py:ParticleDynamic.update_best_particle"]}
{"id": "C77", "title": "Further benchmark objectives: minima and lower bounds", "statement": "p_4th_order has minimum 1-d/4, attained exactly where all coordinates are +-sqrt(1/2); Unimodal has minimum ln 2 only in its centre; Bimodal >= -ln(3/2), Banana >= 0, nd_sinus >= 0, 0 <= accelerated_sinus <= 2, |Michalewicz| <= d.", "quantifier": "all points of R^d, all d, all parameters", "why_tests_cant": "Global minimality over R^d.", "anchors": ["cbx/objectives.py"]}
{"id": "C78", "title": "Benchmark objectives without a minimum", "statement": "McCormick, eggholder, Holder_table and cross_in_tray have documented global minima; on R^2 (no domain is enforced anywhere) they are unbounded below. The second documented minimum of McCormick has a value above 1, the first one below -1.", "quantifier": "all bounds", "why_tests_cant": "Needs points far away, for every bound.", "anchors": ["cbx/objectives.py:McCormick", "cbx/objectives.py:eggholder", "cbx/objectives.py:Holder_table", "cbx/objectives.py:cross_in_tray"]}
{"id": "C79", "title": "Squeezing objectives", "statement": "Objectives ending with squeeze() (accelerated_sinus, nd_sinus, p_4th_order) used with f_dim='3D' pass the shape check exactly if M and N differ from 1; then they are pointwise. As '1D' objectives they meet the requirement of the promotion for every shape.", "quantifier": "all M, N, d, all pointwise functions", "why_tests_cant": "Boundary shapes.", "anchors": ["cbx/objectives.py:accelerated_sinus", "cbx/objectives.py:nd_sinus", "cbx/objectives.py:p_4th_order", "cbx/dynamics/pdyn.py:ParticleDynamic.check_f_dims"]}
{"id": "C80", "title": "Multimodal product objectives", "statement": "Rastrigin_multimodal and Ackley_multimodal with given factors alpha and centres z should be constructible and have value 0 exactly in the centres and positive values elsewhere. The values are as stated whenever evaluation succeeds, but an array z with two or more entries raises in the constructor and a list z raises in every evaluation.", "quantifier": "all alpha, z, points", "why_tests_cant": "All centres, all points.", "anchors": ["cbx/objectives.py:Rastrigin_multimodal", "cbx/objectives.py:Ackley_multimodal"]}
{"id": "C81", "title": "Mean and covariance of one CBO step", "statement": "Let the draws of a particle have mean 0, variance v and be uncorrelated. From every reachable state of an unbatched CBO the new position has mean x - lamda dt (x-c) and diagonal covariance sigma^2 dt v times 1 (constant), |x-c|^2 (isotropic), (x_i-c_i)^2 (anisotropic noise). The mean square distance to c decreases iff d sigma^2 v < 2 lamda - lamda^2 dt (isotropic) or sigma^2 v < 2 lamda - lamda^2 dt (anisotropic). The default parameters lamda=1, dt=0.01, sigma=5.1 should contract; they expand it by at least 24% per step in every dimension.", "quantifier": "all averages (probability measures), states, objectives, particles, parameters, dimensions", "why_tests_cant": "A statement on expectations; a test sees samples only.", "anchors": ["cbx/dynamics/cbo.py:cbo_update", "cbx/noise.py:isotropic_noise", "cbx/noise.py:anisotropic_noise", "cbx/noise.py:constant_noise"]}
{"id": "C82", "title": "Mean and covariance of one CBS step", "statement": "CBS accepts exactly unbatched ensembles with at most three axes and a known noise name. One step with covariance noise has mean x - lamda dt (x-c) and covariance 2 dt (1+alpha) C in mode 'sampling', 2 dt C in every other mode, where c and C are the Gibbs-weighted mean and covariance; the argument sigma has no influence. The documented factor (1-exp(-dt))^2/lamda of the noise is not the one used.", "quantifier": "all averages, ensembles, objectives, alpha > -1, dt >= 0, mode strings, sigma", "why_tests_cant": "A statement on expectations over all ensembles.", "anchors": ["cbx/dynamics/cbs.py:CBS.__init__", "cbx/dynamics/cbs.py:CBS", "cbx/noise.py:covariance_noise"]}
{"id": "C83", "title": "Independent noise of DriftConstrainedCBO", "statement": "With sigma_indep > 0 a step first adds noise to the collapsed ensembles (mean square distance to the last consensus at most the threshold) until none is collapsed; runs that are not collapsed are not touched; with sigma_indep <= 0 nothing happens. The step should return, only active runs should move and best_particle should attain best_energy: none of this holds (dt = 0 loops for ever, terminated runs are moved, best_particle is the position before the noise and best_energy the value after it).", "quantifier": "all objectives, noises, states reachable by any history, thresholds, constraints", "why_tests_cant": "Non-termination cannot be observed; all histories.", "anchors": ["cbx/dynamics/driftconstrainedcbo.py:DriftConstrainedCBO.indep_noise_step", "cbx/dynamics/driftconstrainedcbo.py:DriftConstrainedCBO.inner_step"]}
{"id": "C84", "title": "Best particle under changing penalty weights", "statement": "RegCombinationCBO with a scheduler on the penalty weights: best_energy is the minimum of the penalised values of the points of the run, each with the weight at the time it was evaluated, and best_particle had that value then. It should be the best point for the present objective: it is not, and a point evaluated once below all feasible values keeps best_particle infeasible for ever.", "quantifier": "all objectives, penalties, constraints solvers, schedules of weights, histories", "why_tests_cant": "All histories and all schedules.", "anchors": ["cbx/dynamics/regcombinationcbo.py:RegCombinationCBO", "cbx/regularizers.py:regularization_paramter_scheduler.update", "cbx/dynamics/pdyn.py:ParticleDynamic.update_best_particle"]}
{"id": "C85", "title": "Regularisers measure what they are named after", "statement": "HyperplaneDistance and SphereDistance are Euclidean distances (attained, no nearer point), L1 is a norm, L0 counts the entries different from 0, QuadricDistance vanishes exactly on the quadric. True for a normal vector; false for the default normal a=1 in dimension >= 2 (sqrt d too large), for L0 with entries up to 1e-8, and the quadric value is not a distance. A zero normal gives NaN or inf.", "quantifier": "all points, dimensions, normals, radii, matrices", "why_tests_cant": "Minimality over all points of the set.", "anchors": ["cbx/regularizers.py:L0", "cbx/regularizers.py:L1", "cbx/regularizers.py:HyperplaneDistance", "cbx/regularizers.py:SphereDistance", "cbx/regularizers.py:QuadricDistance"]}
{"id": "C86", "title": "Each variant makes exactly its documented move", "statement": "While all runs are active a step takes each particle v to: v - w with w the solution of the constraint system for lamda dt (v-cp) + dt/eps grad + sigma noise (DriftConstrainedCBO); the projection of v + P(v)(dt cp + sigma noise) - curvature (HyperSurfaceCBO); the constraint solver applied to v - lamda dt (v-cp) + sigma noise (RegCombinationCBO). cp is the consensus of the particle's own run. MirrorCBO moves the dual points of the selected particles by - lamda dt (v-cp) + sigma noise for any active runs and batches. RegCombinationCBO should support several constraints: no step of it succeeds then.", "quantifier": "all executions, objectives, constraints, surfaces, mirror maps, noises, batches", "why_tests_cant": "All executions and callables.", "anchors": ["cbx/dynamics/driftconstrainedcbo.py:DriftConstrainedCBO.inner_step", "cbx/dynamics/hypersurfacecbo.py:HyperSurfaceCBO.inner_step", "cbx/dynamics/regcombinationcbo.py:RegCombinationCBO.inner_step", "cbx/dynamics/mirrorcbo.py:mirror_step"]}
{"id": "C87", "title": "Mirror maps are consistent with their functions", "statement": "For each mirror map grad is the gradient of __call__, grad_conj y maximises <y,.> - F, hessian is the derivative of grad and Bregman distances are >= 0. True for L2, ElasticNet, LogBarrierBox, NonsmoothBarrier on their domains, except: Entropy is concave, grad is never its gradient, grad_conj minimises and its Bregman distances are negative; the Hessian of L2 lacks lamda; weighted_L2.grad_conj is the identity; NonsmoothBarrier sums over all particles of an array; ProjectionBall.__call__ ignores the centre.", "quantifier": "all points of the domains, dimensions, parameters", "why_tests_cant": "Maxima over all points, derivatives in all directions.", "anchors": ["cbx/dynamics/mirrorcbo.py:MirrorMap", "cbx/dynamics/mirrorcbo.py:Bregman_distance"]}
{"id": "C88", "title": "CBO post-processed by a mirror map is feasible", "statement": "With MirrorMaptoPostProcessProx of a projection as post_process all particles are in the set after each step, and so is the returned best particle. True for balls, hyperplanes, simplex when the initial particles are in the set; refuted otherwise: initial particles are evaluated before projection, so an infeasible one that beats the set stays best for ever. The sphere projection turns a run at the origin into NaN.", "quantifier": "all sets reached by the post-processing, objectives finite on finite points, dimensions, batches, executions", "why_tests_cant": "All executions, all positions and draws; a test starts from particles in the set or looks at x only.", "anchors": ["cbx/dynamics/mirrorcbo.py:MirrorMaptoPostProcessProx", "cbx/dynamics/pdyn.py:ParticleDynamic.post_step"]}
{"id": "C89", "title": "Mean-square consensus over whole CBO runs", "statement": "Unbatched CBO with isotropic or anisotropic noise and uncorrelated draws of mean 0 and variance v: after n steps the mean sum of squared distances of all pairs of particles is at most q^n times its value now, q = (1-lamda*dt)^2 + 2(N-1) sigma^2 dt v D, D = d (isotropic) or 1 (anisotropic); so the probability of a spread of at least e is at most q^n * spread / e. q < 1 exactly if 2(N-1) D sigma^2 v < 2 lamda - lamda^2 dt.", "quantifier": "all objectives finite on finite points, all alpha schedules, all numbers of steps, particles and dimensions, all laws of the draws with these moments, post-processings that do not increase distances", "why_tests_cant": "A mean over all draws for all numbers of steps, objectives and schedules; simulation only estimates it for one.", "anchors": ["cbx/dynamics/cbo.py:CBO.inner_step", "cbx/noise.py:isotropic_noise", "cbx/noise.py:anisotropic_noise"]}
{"id": "C90", "title": "Noise-free CBO converges to one point", "statement": "Unbatched CBO with sigma = 0 and 0 < lamda*dt <= 1: in every endless run all particles converge to one point; it lies in every box around the initial ensemble and after n steps each coordinate is within (1-lamda*dt)^n times the width of the box.", "quantifier": "all objectives finite on finite points, all alpha schedules and termination checks between the steps, dimensions, ensembles, post-processings that leave the box alone", "why_tests_cant": "A limit of infinite runs, for all objectives.", "anchors": ["cbx/dynamics/cbo.py:CBO.inner_step", "cbx/dynamics/pdyn.py:CBXDynamic.compute_consensus"]}
{"id": "C91", "title": "Convex sets and quasi-convex objectives under noise-free CBO", "statement": "The consensus point lies in every convex set that holds the particles of finite energy. With sigma = 0 and 0 <= lamda*dt <= 1 the particles of a run never leave a convex set that post-processing does not leave, and if the objective is quasi-convex the largest energy of the run never grows. For convex objectives and alpha >= 0 the objective at the consensus is at most the Gibbs mean of the energies, which decreases in alpha, and so at most their average; without convexity it may exceed all energies.", "quantifier": "all convex sets and (quasi-)convex functions, dimensions, ensembles, batch sizes, partial updates, all executions with changes of the parameters that keep sigma = 0 and 0 <= lamda*dt <= 1", "why_tests_cant": "All convex sets and functions, whole executions.", "anchors": ["cbx/dynamics/cbo.py:CBO.inner_step", "cbx/dynamics/pdyn.py:compute_consensus_default"]}
{"id": "C92", "title": "update_norm, drift_mean and diff_tol mean what they say, and diff_tol stops noise-free CBO", "statement": "update_diff of a run is the root of the sum of the squared distances its particles moved in the step, divided by N; so diff_tol = tol holds exactly if that sum is below (N tol)^2, and then every particle moved by less than N tol. drift_mean is the mean distance of the coordinates to the consensus point. With sigma = 0, 0 < lamda*dt <= 1 and tol > 0, optimize always stops, after at most n+1 steps once (lamda*dt (1-lamda*dt)^n)^2 times the squared diagonal of the initial box is below N tol^2.", "quantifier": "all objectives finite on finite points, all finite ensembles, noise models, corrections and batches (update_norm), all alpha schedules, further built-in criteria, all draws (termination)", "why_tests_cant": "Termination of the loop of optimize for all objectives and schedules, with a bound on the number of steps.", "anchors": ["cbx/dynamics/pdyn.py:CBXDynamic.post_step", "cbx/utils/termination.py:diff_tol_term", "cbx/utils/history.py:track_update_norm", "cbx/utils/history.py:track_drift_mean", "cbx/dynamics/pdyn.py:ParticleDynamic.optimize"]}
{"id": "C93", "title": "Losses and accuracy of a torch ensemble are those of its networks", "statement": "For networks of one architecture, row n of flatten_parameters evaluates (eval_model) as the base network with the listed parameters replaced by those of network n, and as network n itself if all parameters are listed; eval_models and eval_losses give the outputs and losses of the networks in their order. eval_acc is the number of images whose first largest score is at their label over the number of images, does not depend on batches or order, lies in [0,1] and is 1 exactly if all are right; an empty loader raises ZeroDivisionError; without one label per image it can exceed 1.", "quantifier": "all networks, forward passes, losses, parameter lists and loaders", "why_tests_cant": "An identity for all networks, parameter orders and batchings.", "anchors": ["cbx/utils/torch_utils.py:eval_model", "cbx/utils/torch_utils.py:eval_models", "cbx/utils/torch_utils.py:eval_losses", "cbx/utils/torch_utils.py:eval_acc", "cbx/utils/torch_utils.py:flatten_parameters"]}
{"id": "C94", "title": "The consensus point under floating-point rounding", "statement": "With relative rounding error u of the arithmetic, error v of exp and log, any order of summation and |alpha f(x_i)| <= B, the computed weights differ from the Gibbs weights by at most 60 (N(u+v) + uB) in total and sum to 1 up to the same error; each coordinate of the computed consensus is within 67 (N(u+v)+uB) times the largest coordinate of the Gibbs mean. For compute_consensus_rescale the bound is 90 N(u+v) whatever the energies. For the default the term uB is real: in double precision two particles with equal energy e and alpha e >= 2^55 get weights 1 and 1 and the consensus of two particles at one place is twice that place.", "quantifier": "all energies, alpha, particles, numbers of particles, rounding functions and libraries within the errors, all summation orders; all powers of two for the counterexample", "why_tests_cant": "An error bound over all floating-point inputs and summation orders.", "anchors": ["cbx/dynamics/pdyn.py:compute_consensus_default.__call__", "cbx/dynamics/hypersurfacecbo.py:compute_consensus_rescale"]}
{"id": "C95", "title": "The clock under floating-point rounding", "statement": "A run whose only criterion is max_time = T performs exactly n steps, n the first number of (rounded) additions of dt to t which is not below T. With relative rounding error u this differs by at most one from the least integer n0 >= T/dt as long as u (n0+1)(n0+2) <= 1/8. It does differ: in double precision dt = 0.1 and max_time = 1 take 11 steps although 10 dt >= 1. And with dt = 2^j and max_time > 2^(j+53) the time stops growing, so that the run never ends.", "quantifier": "all dynamics without underflow correction, schedulers which leave dt alone, oracles, all T and dt, all roundings within the error; all powers of two for the stall", "why_tests_cant": "The number of steps over all T, dt and rounding functions; non-termination cannot be observed by a test.", "anchors": ["cbx/dynamics/pdyn.py:ParticleDynamic.optimize", "cbx/dynamics/pdyn.py:ParticleDynamic.post_step", "cbx/utils/termination.py:max_time_term"]}
{"id": "C96", "title": "Initial particles", "statement": "init_particles(method='uniform') never raises, returns exactly the requested shape and values between x_min and x_max (also when these are swapped), each with mean (x_min+x_max)/2 and variance (x_max-x_min)^2/12. method='normal' accepts shapes (M,N,d) and (N,d) only, adding a run axis to the latter (which 'uniform' does not), and returns entries with mean 0 and variance delta^2 which are uncorrelated across coordinates, particles and runs: every particle is its vector of normal draws turned by an orthogonal matrix and scaled by |delta|. Any other method raises RuntimeError. A dynamic started from either has shape (M,N,d), or (1,N,d).", "quantifier": "all shapes, bounds, delta, methods and draws, all singular value decompositions; moments for every linear notion of average", "why_tests_cant": "Statements on distributions and on all shapes; the tests check one shape each and no moments.", "anchors": ["cbx/utils/particle_init.py:init_particles", "cbx/dynamics/pdyn.py:ParticleDynamic.init_x", "cbx/dynamics/pdyn.py:ParticleDynamic.init_particles"]}
{"id": "C97", "title": "Exponential sampler and torch backend", "statement": "The draws of exponential_sampler and exponential_torch are uncorrelated with mean 0 and variance 2, so that a step with them has twice the noise covariance of a step with standard normal draws (C81). post_process_default_torch leaves every coordinate finite and at most max_thresh in absolute value after every step; it equals post_process_default (without copy) for max_thresh up to the largest number of the dtype, and not above. The torch effective_sample_size sets the alpha of the NumPy one, within [minimum + (maximum-minimum)/2^(max_it+1), maximum].", "quantifier": "all dimensions, draws and notions of average; all dynamics, states and coordinates incl. NaN and infinities; all energies, eta, bounds and iteration limits", "why_tests_cant": "Moments of a distribution; equality of two backends on all values.", "anchors": ["cbx/noise.py:exponential_sampler", "cbx/utils/torch_utils.py:exponential_torch", "cbx/utils/torch_utils.py:post_process_default_torch.__call__", "cbx/utils/torch_utils.py:effective_sample_size.update"]}
{"id": "C98", "title": "The Gaussian mixture objective Multimodal, centres of Bimodal", "statement": "Multimodal with equally many means and covariances should accept exactly positive definite covariances and be the negative logarithm of the sum of their Gaussian densities, bounded below by -log of the sum of the peak densities and above by -log of each density, with the mean as only minimiser for one component; without arguments it should be |x|^2/2 + log(2 pi) in the plane. That holds; but surplus means or covariances are silently dropped (several means with the default covariance use the first mean only), as '3D' objective it is rejected for one run or one particle, and a centre of Bimodal/Unimodal given as an array raises. Bimodal is negative in its first centre and below ln 2 in its second.", "quantifier": "all means, covariances, points, dimensions; all shapes for the check", "why_tests_cant": "All points and parameters; the class has no test.", "anchors": ["cbx/objectives.py:Multimodal", "cbx/objectives.py:Bimodal", "cbx/objectives.py:Unimodal", "cbx/dynamics/pdyn.py:ParticleDynamic.check_f_dims"]}
{"id": "C99", "title": "Element types: integer ensembles and alpha as number or array", "statement": "A dynamic should do the same for an ensemble of integers as for the same numbers as floats, and take alpha as number or array. For float ensembles every typed step is the documented step and a number alpha is used for every run. For integers it is false: alpha is cut to an integer (below one it is zero, stays zero under the default schedule, and the consensus point is the plain mean), every step of CBO and CBOMemory raises, and PSO runs but keeps velocities and memories integral in every reachable state - the stored velocity is the documented one truncated, nothing moves while it is below one, and the remembered point need not have the remembered value. alpha as numpy scalar, flat array or array with too few rows fails at the first consensus.", "quantifier": "all configurations, reachable states, draws, parameters; all alpha and sets of active runs", "why_tests_cant": "Element types only matter for inputs no test uses; reachable states of any length.", "anchors": ["cbx/dynamics/pdyn.py:CBXDynamic.init_alpha", "cbx/dynamics/cbo.py:cbo_update", "cbx/dynamics/cbo_memory.py:CBOMemory.inner_step", "cbx/dynamics/pso.py:PSO.inner_step", "cbx/dynamics/pdyn.py:post_process_default"]}
{"id": "C100", "title": "Seeds and random streams: reproducibility and isolation of dynamics", "statement": "A dynamic given its ensemble and a seed (own sampler) depends on its own commands only: whatever other dynamics, uses or reseedings of np.random happen in between and in whatever process, constructing, stepping, optimizing and resetting it in the same order gives the same state; two such dynamics with equal arguments stay equal. Each condition is needed: with x=None the seed does not fix the run, and a sampler over np.random makes the order of steps of two dynamics matter. The dimension check of the objective draws one array from the sampler, so check_f_dims changes the run; batches ignore the seed - all dynamics of equal sizes use the same batches (batch seed 42). Every state of every script is an execution in the sense of the other properties, and each step draws one array of the shape of the drift.", "quantifier": "all scripts (any number of dynamics, any commands in any order), all generators, worlds, configurations", "why_tests_cant": "Interleavings of arbitrary scripts and arbitrary generators; tests seed one dynamic at most.", "anchors": ["cbx/dynamics/pdyn.py:ParticleDynamic.set_array_backend_funs", "cbx/dynamics/pdyn.py:ParticleDynamic.init_particles", "cbx/dynamics/pdyn.py:ParticleDynamic.check_f_dims", "cbx/dynamics/pdyn.py:CBXDynamic.init_batch_idx", "cbx/dynamics/pdyn.py:CBXDynamic.set_batch_idx_batched"]}
{"id": "C101", "title": "optimize: what it returns, its schedules, defaults and arguments", "statement": "optimize returns one point per run: unless everything computed for a run is +inf, a point evaluated for that run with the smallest value computed for it so far (also over earlier calls). With the default schedule n steps multiply every alpha by 1.05^n capped at 1e5 (from alpha=1 the cap is in force iff n >= 236); None leaves alpha alone; 'effective' leaves one alpha per run between 1.5 and 1e5. Repeated calls accumulate, whatever resets lie in between. Without criteria exactly max_it - it steps are made; max_it=None never returns. The print interval has no effect unless it is 0.", "quantifier": "all configurations, reachable states, random draws, schedules, numbers of steps and sequences of calls", "why_tests_cant": "Whole runs of unbounded length and arbitrary sequences of calls; tests run a few steps with one schedule.", "anchors": ["cbx/dynamics/pdyn.py:ParticleDynamic.optimize", "cbx/dynamics/pdyn.py:CBXDynamic.default_sched", "cbx/dynamics/pdyn.py:ParticleDynamic.init_term", "cbx/dynamics/pdyn.py:CBXDynamic.reset", "cbx/dynamics/cbs.py:CBS.run", "cbx/scheduler.py:effective_sample_size.update"]}
{"id": "C102", "title": "CBO runs do not depend on the units of length, energy and time", "statement": "Let lengths be multiplied by len>0, energies by en>0 and times by ti>0, alpha divided by en, lamda by ti, sigma by sqrt(ti) (and multiplied by len for constant noise), tolerances, time limit and clipping threshold converted likewise, and the normal draws left alone. Then after any sequence of constructions, steps, termination checks, parameter changes and resets the two states are conversions of each other - positions, energies, consensus points, best particles and energies, update norms, time - with equal iteration counters, evaluation counts, mini-batches and active runs, and both stop at the same check. Consequently only alpha*f, lamda*dt and sigma*sqrt(dt) matter: (lamda, sigma, dt) acts like (lamda*dt, sigma*sqrt(dt), 1). The default clipping threshold is a fixed length, so the claim is false with defaults for runs that reach it.", "quantifier": "all scale factors, objectives finite on finite points, the three noise models, batch sizes, ensembles, draws, and call sequences of any length", "why_tests_cant": "A relation between two executions for every scale factor and every length of run; a test compares two runs for one factor up to rounding.", "anchors": ["cbx/dynamics/cbo.py:CBO.cbo_step", "cbx/dynamics/pdyn.py:ParticleDynamic.step", "cbx/dynamics/pdyn.py:ParticleDynamic.terminate", "cbx/dynamics/pdyn.py:CBXDynamic.compute_consensus", "cbx/noise.py:anisotropic_noise", "cbx/noise.py:isotropic_noise", "cbx/noise.py:constant_noise"]}
{"id": "C103", "title": "HyperSurfaceCBO: curvature correction, consensus states and lamda", "statement": "While all runs are active no step of HyperSurfaceCBO fails, and it moves each particle to the projection of x + P(dt*consensus + sigma*noise) - correction. On the unit sphere and with isotropic noise the mean of |x_tilde|^2 before the projection is 1 + O(dt^2): the correction removes the first-order effect of the curvature; on a plane it is zero; on the Stiefel manifold the mean of X^T X before the projection is I + O(dt^2), so the constant used as Laplacian is the right one. On the sphere and the Stiefel manifold a run whose particles agree on a point of the surface stays there for ever. The corresponding statements for anisotropic noise, constant noise and planes, and the statement that lamda scales the drift, are false.", "quantifier": "all points and consensus points, sigma, dt, dimensions, centred uncorrelated noise laws, surfaces, and runs of any length", "why_tests_cant": "An order-of-accuracy statement about means over a noise law, for all points and step sizes, and an invariant over runs of any length; a test sees the positions after the projection only, which hides the correction.", "anchors": ["cbx/dynamics/hypersurfacecbo.py:HyperSurfaceCBO.inner_step", "cbx/dynamics/hypersurfacecbo.py:HyperSurfaceCBO.noise_constr_iso", "cbx/dynamics/hypersurfacecbo.py:HyperSurfaceCBO.noise_constr_aniso", "cbx/dynamics/hypersurfacecbo.py:HyperSurfaceCBO.__init__"]}
{"id": "C104", "title": "CBO runs do not depend on the order in which particles are listed", "statement": "Let one CBO run start from the ensembles of another with the particles of every run listed in another order, with batch permutations naming the same particles and the noise going to the same particles (per particle for full updates, per place in the batch for partial updates). Then after any sequence of steps, termination checks, parameter changes and resets the positions and energies of the two states are reordered in the same way and everything else agrees: consensus points, best energies, smallest current energies, update norms, evaluation counts, pending batches, active runs, time; both stop at the same check, and the best particles have the same energy. The best particle itself need not be the same point: among equal energies the one listed first is reported.", "quantifier": "all orders of the particles per run, objectives finite on finite points, the three noise models, batch sizes and modes, draws, and call sequences of any length", "why_tests_cant": "A relation between two executions for every permutation and every length of run; a test compares two runs for one permutation, one seed and up to rounding.", "anchors": ["cbx/dynamics/cbo.py:CBO.cbo_step", "cbx/dynamics/pdyn.py:ParticleDynamic.step", "cbx/dynamics/pdyn.py:ParticleDynamic.update_best_cur_particle", "cbx/dynamics/pdyn.py:CBXDynamic.compute_consensus", "cbx/dynamics/pdyn.py:CBXDynamic.set_batch_idx_batched", "cbx/dynamics/pdyn.py:ParticleDynamic.terminate"]}
{"id": "C105", "title": "The step of AdamCBO: bounded displacement, no time step, momentum at consensus", "statement": "At every reachable state an AdamCBO step moves each coordinate of a particle of the batch by minus lamda times the quotient of its corrected moments plus the noise. Apart from the noise the displacement is at most |lamda| sqrt(b1/((1-b1)(b1-b0^2))) per coordinate (about 23.5 |lamda| for the defaults), whatever drifts were received, batches missed and resets called. The first step moves by lamda u/(|u|+eps) with u the difference to the consensus point. Without noise a first step increases the distance to the consensus point in exactly the coordinates with 0 < |u| < lamda/2 - eps; the step does not depend on dt; and a particle that sits at the consensus point is moved in exactly the coordinates in which the weighted sum of its past drifts is not zero.", "quantifier": "all objectives, noise models, post-processings, batch settings, dimensions, rates 0 <= b0 < 1, 0 <= b1 < 1 (bound: b0^2 < b1), eps > 0, reachable states with finite positions and drifts, finite draws", "why_tests_cant": "The bound is over all histories of drifts, including those with missed batches and resets; the independence of dt and the exact overshoot region are statements about all parameters.", "anchors": ["cbx/dynamics/adamcbo.py:AdamCBO.inner_step", "cbx/dynamics/adamcbo.py:AdamCBO.update_moments"]}
{"id": "C106", "title": "One undefined objective value ends the search of a CBO run", "statement": "For alpha > 0 the consensus of a batch is the Gibbs-weighted mean if all energies are finite or +inf and one is finite; if one energy is NaN or -inf, or all are +inf (a batch in which every particle violates a hard constraint), it is NaN in every coordinate. Then every updated particle of the run loses its position, whatever the noise and the parameters. With the default post-processing and full updates all particles of the run are at (max_thresh, ..., max_thresh) after the step, and with multiplicative noise they stay there for ever, whatever the objective is at that point and whatever steps, checks, parameter changes and resets follow.", "quantifier": "all objectives (values finite, infinite or NaN), ensembles, alpha > 0, noise models, draws, batch settings, thresholds >= 0; all later executions", "why_tests_cant": "A test with one NaN shows positions of 1e8 after one step; that no later sequence of calls brings the run back is a statement about all executions and objectives.", "anchors": ["cbx/dynamics/pdyn.py:compute_consensus_default", "cbx/dynamics/pdyn.py:post_process_default", "cbx/dynamics/cbo.py:CBO.cbo_step"]}
{"id": "C107", "title": "PolarCBO runs: CBO for infinite kappa, and invariance under energy shifts, translations and isometries", "statement": "With kappa = +inf every PolarCBO run (Gaussian, Laplace, Constant or InverseQuadratic kernel, both kernel factor modes) agrees with the CBO run driven by the same calls and random numbers: all positions, energies, best values, counters, active runs agree at every moment and the consensus is the one of CBO for every particle. For every admissible kappa, adding a constant to the objective changes only the energies, translating objective and ensemble translates the run, and an isometry applied to objective, ensemble and draws maps the run if the noise is isotropic or constant.", "quantifier": "all objectives finite at finite points, kernels, kappa > 0 or +inf, kernel factor modes, noise models, batch settings in which every updated particle has a consensus point, draws, permutations, built-in termination criteria, parameter changes; all executions", "why_tests_cant": "Equality of two algorithms along whole runs is a statement about all objectives, ensembles and random numbers; a test compares a few runs up to rounding.", "anchors": ["cbx/dynamics/polarcbo.py:PolarCBO.compute_consensus", "cbx/dynamics/polarcbo.py:compute_polar_consensus", "cbx/dynamics/polarcbo.py:PolarCBO.kernel_factor", "cbx/dynamics/cbo.py:CBO.cbo_step"]}
{"id": "C108", "title": "PolarCBO comes to rest exactly where particles that see each other coincide, and clusters evolve independently", "statement": "Of the kernels Gaussian, Laplace, Constant and InverseQuadratic only the Constant one is ever 0, at distances greater than kappa. An ensemble whose particles either coincide or have kernel 0 never changes under isotropic or anisotropic noise, whatever steps, termination checks, parameter changes and resets follow. Conversely a noise-free step with lamda*dt <> 0 leaves the particles of an active run in place only if particles that see each other coincide: with the three other kernels only full consensus is at rest, with the Constant kernel any set of clusters more than kappa apart. Without noise and with 0 <= lamda*dt <= 1 particles never leave convex regions that do not see each other (in particular not the convex hull of the ensemble), also with mini-batches; with full batches the particles of one region move as if the others did not exist, whatever the others and the objective elsewhere are.", "quantifier": "all kernels, kappa > 0 or inf, kernel factor modes, objectives finite on the regions, ensembles of any size, batch settings, noise models; all executions", "why_tests_cant": "A test shows clusters on one example; that rest means exactly this, and that clusters never influence each other, concerns all ensembles and executions.", "anchors": ["cbx/dynamics/polarcbo.py:PolarCBO.compute_consensus", "cbx/dynamics/polarcbo.py:Constant_kernel", "cbx/dynamics/cbo.py:CBO.cbo_step"]}
{"id": "C109", "title": "CBS runs stay in the affine hull of their particles, do not depend on the eigenvectors and move with isometries", "statement": "With covariance noise (CBS, and CBO with noise='covariance') no step raises for a finite objective, and the positions after any number of steps are the same for any two correct eigendecompositions (a matrix has only one positive semidefinite square root). While nothing is clipped every particle stays an affine combination of the N initial particles, whatever the draws: with N <= d particles the run never leaves an (N-1)-dimensional affine subspace. If the objective is moved by p -> A p + b with A orthogonal and changed by a constant, the run from the moved particles with the turned draws is the moved run; for every matrix A the mean and covariance of the step move along (A c + b, A C A^T).", "quantifier": "all finite objectives, dimensions, ensembles, alpha > -1, dt >= 0, lamda, sigma (changing from step to step), draws, numbers of steps, modes, correct eigh", "why_tests_cant": "The affine hull is a set of measure zero only for N <= d, and that no draw leaves it, or that LAPACK's choice of eigenvectors never matters, cannot be shown by sampling runs.", "anchors": ["cbx/noise.py:covariance_noise", "cbx/dynamics/pdyn.py:compute_mat_sqrt", "cbx/dynamics/cbs.py:CBS.__init__", "cbx/dynamics/cbo.py:CBO.cbo_step"]}
{"id": "C110", "title": "Without noise PSO drives its particles apart until they are clipped, CBOMemory keeps them in the hull", "statement": "PSO without noise and memory drift, for every finite objective: while the post-processing changes nothing, the differences between the particles of a run are all multiplied by one factor, at least (1+e)^n after n steps, if lamda*dt^2/(m+gamma*dt) >= e; with the default post-processing a run with two different particles therefore reaches the clipping bound after a bounded number of steps. With memory drift (lambda_memory >= 0): if the objective rises on the rays from the consensus point through the particles, memories and consensus point never change and the particles leave along these rays at this rate. CBOMemory without noise and with lamda*dt, lambda_memory*dt in [0,1] keeps particles and memories in every convex region that contains the initial particles.", "quantifier": "all finite objectives, dimensions, ensembles, numbers of runs and steps, parameters changing from step to step, draws, interleaved termination checks and resets", "why_tests_cant": "Tests check that optimize runs and that shapes fit; with the default noise and few steps the growth is not visible, and that it happens for every objective is a statement about all runs.", "anchors": ["cbx/dynamics/pso.py:PSO.inner_step", "cbx/dynamics/pso.py:PSO.compute_consensus", "cbx/dynamics/cbo_memory.py:CBOMemory.inner_step", "cbx/dynamics/cbo_memory.py:CBOMemory.memory_step", "cbx/dynamics/pdyn.py:post_process_default"]}
{"id": "C111", "title": "Whole sessions with CBOMemory and PSO keep the symmetries of the problem", "statement": "A session constructs CBOMemory or PSO and then makes any sequence of steps, termination checks, parameter changes and resets. Adding a constant to the objective (and to the energy tolerance) adds it to all energies and changes nothing else; moving objective, post-processing and initial particles by a vector moves positions, memories and consensus points and leaves drifts, velocities, energies and counters alone; with constant or isotropic noise turning everything by an isometry turns the session. In each case both sessions raise the same exception or both end, and then active runs, call counters, step counters, termination reasons and recorded histories agree up to the symmetry.", "quantifier": "all finite objectives, dimensions, ensembles, mini-batch settings, correction terms, parameters changing between steps, draws, built-in criteria and sequences of calls", "why_tests_cant": "Tests check shapes and that runs finish; that two whole runs on different problems correspond to each other, including when they fail, needs a statement about all pairs of runs.", "anchors": ["cbx/dynamics/pso.py:PSO.inner_step", "cbx/dynamics/cbo_memory.py:CBOMemory.inner_step", "cbx/dynamics/cbo_memory.py:CBOMemory.memory_step", "cbx/dynamics/pdyn.py:ParticleDynamic.step", "cbx/dynamics/pdyn.py:ParticleDynamic.post_step", "cbx/utils/termination.py:energy_tol_term"]}
{"id": "C112", "title": "What live plotting of CBO shows", "statement": "While every run is active, the picture drawn after a step shows the particles of the chosen run before the step, the Gibbs consensus point of its (mini-)batch and arrows whose tails are particles of this run and whose tips are exactly this consensus point (one arrow per updated particle). In general consensus point and arrows are those of the num_run-th active run while the particles are those of run num_run, and with at most num_run active runs an IndexError is raised (refuting that the picture of a run shows this run). Before the first step the particles stand in for the consensus points and every arrow points at the origin. With save_int = 1 the pictures made from the history equal the live ones; for save_int = 2 this is refuted.", "quantifier": "all finite objectives, ensembles, sets of active runs, mini-batch settings, draws, reachable states, plotted runs and frequencies", "why_tests_cant": "No test looks at what is drawn, and the existing plotting tests use one run that never stops.", "anchors": ["cbx/plotting.py:PlotDynamic.init_plot", "cbx/plotting.py:PlotDynamic.update", "cbx/plotting.py:PlotDynamic.plot_particles", "cbx/plotting.py:PlotDynamic.plot_c", "cbx/plotting.py:PlotDynamic.plot_d", "cbx/plotting.py:PlotDynamicHistory.plot_at_ind"]}
{"id": "C113", "title": "Coordinates do not mix under anisotropic noise", "statement": "With anisotropic or constant noise, a map computing every coordinate of the image as a*x_i + b (permutations, flips, per-coordinate units, shifts, dropped or repeated coordinates, possibly between different dimensions) that carries objective, post-processing, initial ensemble and draws over carries every CBO, CBOMemory and PSO session over: the same exception or the same energies, counters, active runs, termination reasons and histories with mapped points. In particular coordinates the objective ignores have no influence on the others: a session in R^(d+e) restricted to the first d coordinates is the session in R^d. For isotropic noise this is refuted.", "quantifier": "all finite objectives, coordinate maps, dimensions, numbers of runs and particles, batch settings, correction terms, post-processings that commute with the map, sequences of steps, termination checks, parameter changes and resets, and draws; criteria on energies, evaluations and iterations", "why_tests_cant": "A test compares single trajectories in one dimension; it cannot quantify over maps, dimensions and sequences of calls.", "anchors": ["cbx/noise.py:anisotropic_noise.__call__", "cbx/noise.py:constant_noise.__call__", "cbx/noise.py:isotropic_noise.__call__", "cbx/dynamics/cbo.py:CBO.inner_step", "cbx/dynamics/cbo_memory.py:CBOMemory.inner_step", "cbx/dynamics/pso.py:PSO.inner_step", "cbx/dynamics/pdyn.py:ParticleDynamic.step"]}
{"id": "C114", "title": "Sessions of the CBO variants keep the symmetries of the problem", "statement": "Whole sessions of MirrorCBO, AdamCBO, DriftConstrainedCBO, HyperSurfaceCBO and RegCombinationCBO (construction, then any sequence of steps, termination checks, parameter changes and resets): adding a constant to the objective and the energy tolerance only adds it to all energies. Translating objective, start and constraint/penalty/solver translates sessions of AdamCBO, DriftConstrainedCBO and RegCombinationCBO; for HyperSurfaceCBO on a plane this is false even for translations along the plane. With constant or isotropic noise an isometry applied to everything (objective, start, draws, mirror map, constraints, surface, solver) is applied to sessions of MirrorCBO, DriftConstrainedCBO, HyperSurfaceCBO and RegCombinationCBO; for AdamCBO this is false for every choice of its parameters. The compared sessions raise the same exceptions, and also agree on counters, active runs, termination reasons, histories and on the attributes added by the variant (mirror variables, moments, penalty weights).", "quantifier": "all finite objectives, constants, shifts, isometries, dimensions, numbers of runs and particles, batch settings, correction terms, mirror maps, constraints, surfaces and solvers that commute with the symmetry, sequences of calls, and draws", "why_tests_cant": "A test compares single trajectories; it cannot quantify over symmetries, user-supplied maps and sequences of calls.", "anchors": ["cbx/dynamics/mirrorcbo.py:mirror_step", "cbx/dynamics/adamcbo.py:AdamCBO.inner_step", "cbx/dynamics/driftconstrainedcbo.py:DriftConstrainedCBO.inner_step", "cbx/dynamics/hypersurfacecbo.py:HyperSurfaceCBO.inner_step", "cbx/dynamics/regcombinationcbo.py:RegCombinationCBO.inner_step", "cbx/dynamics/pdyn.py:ParticleDynamic.step"]}
{"id": "C115", "title": "Sessions of the CBO variants do not raise", "statement": "After a construction with a rectangular nonempty ensemble, any sequence of steps, termination checks, parameter changes and resets runs without an exception: for MirrorCBO (without correction term) and AdamCBO with any number of runs, whichever runs have stopped; for HyperSurfaceCBO, DriftConstrainedCBO and RegCombinationCBO with one run, or with several runs as long as no termination check is made, provided the linear systems solved by the last two are solvable for the time steps in use.", "quantifier": "all number types (also with NaN and infinities), objectives, post-processings, mirror maps, noise, surfaces, constraints, batch settings, call sequences and draws; built-in termination criteria", "why_tests_cant": "A test runs one session to its end; it cannot cover all sequences of calls and all states of activity.", "anchors": ["cbx/dynamics/mirrorcbo.py:mirror_step", "cbx/dynamics/adamcbo.py:AdamCBO.inner_step", "cbx/dynamics/driftconstrainedcbo.py:DriftConstrainedCBO.inner_step", "cbx/dynamics/hypersurfacecbo.py:HyperSurfaceCBO.inner_step", "cbx/dynamics/regcombinationcbo.py:RegCombinationCBO.inner_step", "cbx/dynamics/pdyn.py:ParticleDynamic.optimize"]}
{"id": "C116", "title": "What optimize prints", "statement": "The verbosity has no influence on results or exceptions; with verbosity 0 nothing is printed. Otherwise the best energy is printed when the call returns and is the best_energy left behind; no energy printed on the way is smaller; with print_int = 1 it is exactly the least of the printed energies and the best energy before the call. With the documented schedules the printed times are t + j*dt for exactly those steps j of the call with (it + j - 1) divisible by print_int (default save_int). The printed best current energy should belong to the ensemble at the printed time: it is the least objective value of the particles before the step (refuted for the particles after it).", "quantifier": "all objectives without NaN, numbers of runs and particles, batch settings, termination criteria, schedules, print intervals, verbosity levels and draws; calls continuing earlier runs included", "why_tests_cant": "Output is not asserted in tests, and which lines appear depends on counters over the whole run.", "anchors": ["cbx/dynamics/pdyn.py:ParticleDynamic.optimize", "cbx/dynamics/pdyn.py:ParticleDynamic.print_post_opt", "cbx/dynamics/pdyn.py:CBXDynamic.print_cur_state"]}
{"id": "C117", "title": "Dual points of MirrorCBO: recorded history and resampling", "statement": "Also when x or y are resampled or overwritten between steps: after every step all positions are the post-processed images of the dual points; history['x'] consists of the initial positions followed by exactly as many entries as history['y'], entry k of both belonging to step k*save_int, and the recorded positions are the images of the recorded dual points (refuted: entries with the same index do not belong together). The next dual point starts from the previous one, positions only enter through the drift and the consensus; in terminated runs and for unselected particles anything written to x is undone. Resampling 'y' by amp*z is still there, unchanged, in the dual points after the next step; resampling 'x' (the default) leaves y alone (refuted: resampled particles go on from where they were put).", "quantifier": "all mirror maps, objectives, numbers of runs and particles, batch settings, noise draws, save intervals, sets of tracked names, and interleavings of steps, termination checks, parameter changes, resamplings and assignments to x and y", "why_tests_cant": "There is no test of track_y and none of resampling with MirrorCBO; alignment and displacement have to hold after every prefix of a session.", "anchors": ["cbx/dynamics/mirrorcbo.py:track_y", "cbx/dynamics/mirrorcbo.py:mirror_step", "cbx/utils/resampling.py:apply_resampling_default"]}
{"id": "C118", "title": "Particles of any shape", "statement": "For ensembles of shape (M, N, d1, ..., dq) a CBO step does not raise, keeps the shape, and moves the flattened particles (C order) exactly as a step on vectors does: softmax-weighted mean as consensus, drift and noise for constant, isotropic and anisotropic noise; PolarCBO with the Gaussian kernel likewise, with the kernel of the flattened particles. Refuted for the rest of the library: the Laplace, Constant and InverseQuadratic kernels make every step raise as soon as q >= 2; update_diff and drift_mean have shape (M, N, d1, ..., d_{q-2}) instead of (M,), so the criterion diff_tol raises (M >= 2, or M = 1 and N >= 2); the objective's counter counts M*N*d1*...*d_{q-1} evaluations per call; objectives promoted with f_dim '1D' or '2D' fail the constructor's check unless N = 1 and all axes but the last have length one.", "quantifier": "all numbers of runs and particles, all particle shapes, all entries (finite or not), noise models, kernels and parameters", "why_tests_cant": "The only test of this feature makes one step with one shape, equal entries and default settings, and looks at dyn.d only.", "anchors": ["cbx/dynamics/pdyn.py:compute_consensus_default", "cbx/noise.py:isotropic_noise.sample", "cbx/dynamics/cbo.py:CBO.cbo_step", "cbx/dynamics/polarcbo.py:compute_polar_consensus", "cbx/utils/termination.py:diff_tol_term", "cbx/utils/objective_handling.py:cbx_objective_f1D.apply"]}
{"id": "C119", "title": "Kernels of PolarCBO: documentation, monotonicity, and the kernel in use", "statement": "For kappa > 0 the Gaussian and Laplace kernels are the documented functions of the distance; the constant kernel is 1 below, e^-1 at and 0 beyond the distance kappa (refuted: 1 at the distance kappa); the inverse quadratic kernel is 1/(1+(r/kappa)^2), which is the documented 1/(1+r^2/kappa) exactly for kappa = 1 or r = 0 (refuted otherwise). For every kernel, nearer pairs and larger kappa give larger kernel values, and in the consensus of a particle another particle that is at least as near and at least as good weighs at least as much. kappa = 0 is accepted and makes every weight NaN. A kernel chosen by name keeps the kappa of the moment of set_kernel, whatever is assigned to dyn.kappa later (refuted: assigning kappa changes the kernel). Unknown kernel names raise ValueError and change nothing; unknown factor modes are accepted by the constructor and raise NotImplementedError in every consensus; the mode 'alpha' multiplies by alpha (refuted: by kappa, as documented).", "quantifier": "all points, distances, kappa, alpha, energies (also +inf), kernels, ensemble sizes, and sequences of assignments to kappa, kernel, kernel.kappa and the mode", "why_tests_cant": "The tests use kappa = 1 and one random ensemble per kernel, where the documented and the coded formulas agree; monotonicity and the order of weights quantify over all pairs of points.", "anchors": ["cbx/dynamics/polarcbo.py:Gaussian_kernel", "cbx/dynamics/polarcbo.py:Constant_kernel", "cbx/dynamics/polarcbo.py:InverseQuadratic_kernel", "cbx/dynamics/polarcbo.py:PolarCBO.set_kernel", "cbx/dynamics/polarcbo.py:PolarCBO.kernel_factor"]}
{"id": "C120", "title": "Sessions of all CBO-type dynamics in other units of length and energy", "statement": "Multiplying all lengths (initial points, objective's argument, post-processing, difference tolerance, the draws of constant noise) by len > 0 and all energies (objective, energy tolerance, the correction's argument) by en > 0, and dividing every alpha by en, gives the same session: construction followed by any sequence of steps, termination checks, parameter assignments and resets raises the same exception or ends in the same state with points, consensus, drifts, velocities, best positions and update norms multiplied by len, energies by en, alpha by 1/en, and equal counters, batches, active runs, decisions and clock. This holds for CBO, CBOMemory, PSO, MirrorCBO, DriftConstrainedCBO, HyperSurfaceCBO and RegCombinationCBO (with their maps, constraints, surfaces, solvers and penalties converted), with both corrections. AdamCBO allows only the change of the energy unit: its direction is a pure number. heavi_side_reg_correction with a fixed eps has an energy scale of its own (refuted that it needs no conversion).", "quantifier": "all len, en > 0, finite objectives, dimensions, numbers of runs and particles, batch sizes, noise models, corrections, built-in criteria, parameters, draws, and finite sequences of calls", "why_tests_cant": "An equality between two whole runs for every factor, objective and sequence of calls; tests compare single runs with stored values or shapes.", "anchors": ["cbx/dynamics/cbo.py:CBO.cbo_step", "cbx/dynamics/cbo_memory.py:CBOMemory.inner_step", "cbx/dynamics/pso.py:PSO.inner_step", "cbx/dynamics/mirrorcbo.py:mirror_step", "cbx/dynamics/driftconstrainedcbo.py:dc_inner_step", "cbx/dynamics/hypersurfacecbo.py:HyperSurfaceCBO.inner_step", "cbx/dynamics/regcombinationcbo.py:RegCombinationCBO.inner_step", "cbx/dynamics/adamcbo.py:AdamCBO.inner_step", "cbx/correction.py:heavi_side_reg_correction"]}
{"id": "C121", "title": "weighted_L2 inside MirrorCBO: which arrays it accepts, and x and y sharing memory", "statement": "On ensembles of shape (M,N,d) weighted_L2.grad, which the constructor of MirrorCBO calls, raises for every k x k matrix with k other than 1 (refuted that a d x d matrix works for d-dimensional particles); a 1 x 1 matrix [[a]] multiplies every coordinate by a. On arrays of shape (n,d) the result is (A+A^T)/2 times each row, on matrix-shaped particles a product from the left. grad_conj returns its argument, so x and y are one array while post-processing runs: after any session with at least one step x is y clipped, and y itself has been through nan_to_num. With maps that return new arrays x and y never share memory, the model of C52 applies, and a dual point that became NaN stays NaN (refuted that it is repaired). With weighted_L2 the dual point moves by the CBO update, an update of size zero moves the particles to A x in the first step (refuted that it leaves them), and as long as clipping did not separate x from y a step is exactly a step of CBO.", "quantifier": "all arrays and matrices of the given shapes; all initial ensembles, objectives, batch settings, consensus and noise functions, draws and sequences of steps, termination checks, parameter changes and resets", "why_tests_cant": "Whether two attributes share memory shows only in values that are NaN or clipped, and the repository's tests do not run this map.", "anchors": ["cbx/dynamics/mirrorcbo.py:weighted_L2.grad", "cbx/dynamics/mirrorcbo.py:weighted_L2.grad_conj", "cbx/dynamics/mirrorcbo.py:mirror_step", "cbx/dynamics/pdyn.py:post_process_default.__call__"]}
{"id": "C122", "title": "Constructors: which keywords a dynamic and its torch version accept, and which array functions they use", "statement": "The constructor of every dynamic accepts exactly the keywords of the class and its base classes and raises TypeError for any other (HyperSurfaceCBO also rejects compute_consensus; refuted that all let the user replace it). Every shared parameter arrives with the user's value or the documented default. The class built by to_torch_dynamic accepts the same keywords and device, and uses the user's functions or torch's. Refuted: its consensus is the torch function (PolarCBO and HyperSurfaceCBO keep their NumPy functions, all others use it); the seed changes its sampler (it changes nothing); drawn particles are on the requested device (they are on the cpu).", "quantifier": "all dynamics and all lists of keyword arguments with any values", "why_tests_cant": "There are infinitely many keyword combinations; the repository's tests pass a few keywords and never ask which function was stored.", "anchors": ["cbx/dynamics/pdyn.py:ParticleDynamic.__init__", "cbx/dynamics/pdyn.py:CBXDynamic.__init__", "cbx/utils/torch_utils.py:to_torch_dynamic", "cbx/utils/torch_utils.py:set_array_backend_funs_torch", "cbx/dynamics/polarcbo.py:PolarCBO.__init__", "cbx/dynamics/hypersurfacecbo.py:HyperSurfaceCBO.__init__", "cbx/dynamics/cbs.py:CBS.__init__"]}
{"id": "C123", "title": "Noise-free CBO with mini-batches: contraction, convergence, and batches that never move", "statement": "With batch_args partial=False, n noise-free steps multiply all differences of particles of an active run by (1-lamda*dt)^n for every batch size, and with 0 < lamda*dt <= 1 all particles of an endless run converge to one point in every box around them at this rate. With partial=True, the default, this is refuted: with batch_size 1 every particle is its own consensus, and under isotropic or anisotropic noise no particle ever moves, in whatever session of steps, termination checks, parameter changes and resets.", "quantifier": "all objectives, batch settings, permutations, finite draws, initial ensembles, changes of alpha and numbers of steps", "why_tests_cant": "Convergence of endless runs and immobility for all draws cannot be observed in finitely many runs.", "anchors": ["cbx/dynamics/pdyn.py:CBXDynamic.set_batch_idx_batched", "cbx/dynamics/cbo.py:CBO.inner_step", "cbx/dynamics/pdyn.py:CBXDynamic.init_batch_idx"]}
{"id": "C124", "title": "Noise-free CBO in floating-point arithmetic: contraction down to rounding errors, particles that never meet", "statement": "With a rounding of relative error u after every operation, n noise-free steps of a session bring the coordinates of any two particles of an active run together by the factor (1-kappa)^n, kappa the rounded lamda*dt in (0,1], up to (30u(T + 2b eta) + 8 eta)/kappa for the clipping threshold T, batch size b and underflow error eta; a single computed move differs from the exact one by at most 5u(|x|+|c|) + 4 eta, and a whole step without mini-batches from the exact step towards the exact Gibbs mean by at most kappa(67 q T + 4b eta) + 15u(T + 2b eta) + 4 eta with q = b(u+v) + u A F (A, F bounds of alpha and the objective, v the error of exp and log). Refuted in double precision: that the differences shrink for ever (two particles at distance 2^-53 never meet for lamda*dt = 1/4) and that particles stay in the hull of the ensemble (two positive particles, and one step puts one of them at 0).", "quantifier": "all roundings, exponentials, logarithms and orders of summation of bounded relative error, objectives, batch settings, draws, numbers of steps and changes of alpha within a bound", "why_tests_cant": "Rounding errors depend on every operand; tests see a few of them and compare with tolerances.", "anchors": ["cbx/dynamics/cbo.py:cbo_update", "cbx/dynamics/cbo.py:CBO.inner_step", "cbx/dynamics/pdyn.py:compute_consensus_default"]}
{"id": "C125", "title": "The objectives compute the formulas of their documentation", "statement": "three_hump_camel, McCormick, Rosenbrock, Bukin6, Easom, drop_wave, eggholder and Michalewicz compute the documented formula at every point, Himmelblau, Holder_table and snowflake compute it at the scaled (and shifted) point, Ackley computes it for A = 20. Refuted: snowflake with its default alpha = 0.5 (0 instead of 0.8 at (0,2)); Ackley with A other than 20 differs from its documentation at every point; Rastrigin lacks the documented factor 1/n, so in two or more dimensions it differs at every point other than its minimum; the formula given as the original Rastrigin function is Himmelblau's; the formula of cross_in_tray agrees with the code only where sin(x)sin(y)exp(...) = -1/2.", "quantifier": "all points, parameters and (Rastrigin, Michalewicz) dimensions", "why_tests_cant": "Tests compare values at sample points with the implementation's own formula, not with the documentation.", "anchors": ["cbx/objectives.py:Rastrigin", "cbx/objectives.py:Ackley", "cbx/objectives.py:cross_in_tray", "cbx/objectives.py:snowflake"]}
{"id": "C126", "title": "Documented defaults of the dynamics", "statement": "Whatever other keywords a user gives, a parameter left out arrives with the default documented by ParticleDynamic and CBXDynamic in every dynamic (the noise of CBS excepted), and with the default documented for kernel_factor_mode of PolarCBO, betas and eps of AdamCBO and noise of HyperSurfaceCBO. Refuted for CBO, CBOMemory and PSO: their docstrings give dt = 0.1, sigma = 1.0, noise = normal_noise, m = 0.1, lamda_memory = 1.0 and sigma_memory = 1.0, while the values used are 0.01, 5.1, 'isotropic', 0.001, 0.4 and None (replaced by lamda_memory*sigma); the documented parameters y and v raise TypeError.", "quantifier": "all dynamics, parameters and sets of other keywords", "why_tests_cant": "Tests set parameters explicitly or accept whatever default they get; none reads the documentation.", "anchors": ["cbx/dynamics/cbo.py:CBO", "cbx/dynamics/cbo_memory.py:CBOMemory.__init__", "cbx/dynamics/pso.py:PSO.__init__", "cbx/dynamics/pdyn.py:CBXDynamic.__init__"]}
{"id": "C127", "title": "Runs of the variants do not influence one another", "statement": "An array of M runs of MirrorCBO or AdamCBO is M separate runs: any number of steps with the same draws leave run m of the array and the run on its own with the same positions, energies, best pairs, minimum, update difference, batch indices, parameters and time, and the same dual points or moments, for every batch setting and whatever the other runs do, terminated or not. The same holds for DriftConstrainedCBO, HyperSurfaceCBO and RegCombinationCBO (fixed penalty) while all runs are active (C45 shows that it fails afterwards), and for positions, memory, velocities, energies and best pair of CBOMemory and PSO with full batches.", "quantifier": "all configurations with one consensus point per run, all reachable states, runs, batch settings, draws and numbers of steps", "why_tests_cant": "A test would have to run every variant twice with synchronised random streams; the variants are tested with one run or checked for shapes only.", "anchors": ["cbx/dynamics/mirrorcbo.py:mirror_step", "cbx/dynamics/adamcbo.py:AdamCBO.inner_step", "cbx/dynamics/driftconstrainedcbo.py:dc_inner_step", "cbx/dynamics/hypersurfacecbo.py:HyperSurfaceCBO.inner_step", "cbx/dynamics/regcombinationcbo.py:RegCombinationCBO.inner_step", "cbx/dynamics/cbo_memory.py:CBOMemory.inner_step", "cbx/dynamics/pso.py:PSO.inner_step"]}
{"id": "C128", "title": "Plots of one-dimensional dynamics and of the objective", "statement": "plot_1D draws the graph of the objective over equally spaced points including both limits. contour_2D draws at (x, y) the value of the point with coordinate x in the first chosen dimension, y in the second and 0 in all others, and raises for a dimension outside the space. For one-dimensional CBO each picture shows the particles before the step on the graph of the objective and their Gibbs mean as consensus; plot_drift has no effect; each picture evaluates the objective at the N particles of the run without counting this. REFUTED: the consensus point is drawn on the graph as well: it is drawn at height 0, so for a positive objective it never lies on the graph.", "quantifier": "all objectives, limits, numbers of grid points, dimensions, reachable states, runs, batch settings and numbers of pictures", "why_tests_cant": "The plotting code is only run for crashes, if at all; nobody compares the arrays handed to matplotlib with the objective, and a transposed grid looks right for symmetric objectives.", "anchors": ["cbx/plotting.py:plot_1D", "cbx/plotting.py:contour_2D", "cbx/plotting.py:PlotDynamic.init_plot", "cbx/plotting.py:PlotDynamic.plot_particles", "cbx/plotting.py:PlotDynamic.plot_c", "cbx/plotting.py:PlotDynamic.init_drift"]}
{"id": "C129", "title": "Do the constrained variants approach their constraints?", "statement": "Without noise every step of DriftConstrainedCBO with a plane as constraint divides the largest violation in a run by 1 + 2 dt/eps, for every objective. A run of it in consensus outside a sphere approaches the sphere geometrically; REFUTED inside: with 2 (dt/eps) r^2 > 1 (defaults, unit sphere) a run in consensus near the centre moves away from the sphere. Without noise a step of RegCombinationCBO multiplies the bound by |1 - lamda dt - 2 dt/eps| + lamda dt, which is 1 - 2 dt/eps if lamda dt + 2 dt/eps <= 1. REFUTED for RegCombinationCBO with other parameters, the defaults among them: a run in consensus stays in consensus and each step multiplies the signed distance to the plane by 1 - 2 dt/eps, so that with dt = eps (the defaults, 0.01) the violation never changes and with dt > eps it exceeds every bound; if 4 (dt/eps) r^2 > 1 (defaults, unit sphere) a run in consensus near the sphere is pushed away from it, while it approaches the sphere geometrically if 4 (dt/eps) r^2 < 1.", "quantifier": "all objectives, penalties, planes, spheres, parameters, dimensions, ensembles, batch settings, reachable states, draws, numbers of steps and interleaved termination checks", "why_tests_cant": "The tests run a few steps and check shapes; that the violation decays, oscillates or grows at a given rate concerns all starting points and all numbers of steps.", "anchors": ["cbx/dynamics/driftconstrainedcbo.py:dc_inner_step", "cbx/dynamics/regcombinationcbo.py:RegCombinationCBO.inner_step", "cbx/constraints.py:planeConstraint", "cbx/constraints.py:sphereConstraint", "cbx/constraints.py:MultiConstraint"]}
{"id": "C130", "title": "Consensus of positions stops MirrorCBO", "statement": "Once the positions of a run of MirrorCBO coincide after a step, neither its positions nor its dual points change in any later step, for every mirror map and post-processing and noise that vanishes at the consensus. Without noise j steps move a coordinate of a dual point by at most j lamda dt times the width of the range of this coordinate of the mirror map. A particle whose dual point is further outside than that is still at the boundary after these steps. REFUTED: that the dual points then agree; with a projecting mirror map they may differ for ever in an active run.", "quantifier": "all objectives, mirror maps, post-processings, parameters, dimensions, batch settings, reachable states, finite draws, numbers of steps, interleaved termination checks, active and stopped runs", "why_tests_cant": "The tests run a few steps from random positions, which never coincide; that nothing changes in any later state concerns all continuations.", "anchors": ["cbx/dynamics/mirrorcbo.py:mirror_step", "cbx/dynamics/mirrorcbo.py:ProjectionMirrorMap", "cbx/noise.py:isotropic_noise", "cbx/noise.py:anisotropic_noise"]}
