(** * C22-C28: schedulers, bisection, effective sample size *)
From Coq Require Import List Arith Reals Lra.
From Verif Require Import Scalar Np State Exec TermSpec Consensus ConsSpec Sched SchedFacts EssFacts EssReach ExCons ExSched.
Import ListNotations.
Open Scope R_scope.

(** C22. Closed form after n+1 updates. *)
Theorem C22_multiply : forall V n p f m (s s' : st R V) vs,
  1 <= f -> 0 <= m -> param p s = map Fin vs -> times (S n) (multiply_update p (Fin f) (Fin m)) s = Ok s' ->
  param p s' = map (fun v => Fin (Rmin m (f ^ S n * v))) vs.
Proof. exact multiply_closed. Qed.
Print Assumptions C22_multiply.

(** C22. Factors below one. *)
Theorem C22_multiply_shrink : forall V n p f m (s s' : st R V) vs,
  0 <= f <= 1 -> 0 <= m -> (forall v, In v vs -> v <= m) -> param p s = map Fin vs ->
  times n (multiply_update p (Fin f) (Fin m)) s = Ok s' -> param p s' = map (fun v => Fin (f ^ n * v)) vs.
Proof. exact multiply_shrink. Qed.
Print Assumptions C22_multiply_shrink.

(** C22. No value exceeds the maximum after an update, whatever the factor and old value. *)
Theorem C22_capped : forall K V (O : KOps K) (Ord : KOrd K) p f m (s s' : st K V) a,
  multiply_update p f m s = Ok s' -> In a (param p s') -> fltb m a = false.
Proof. exact @multiply_capped. Qed.
Print Assumptions C22_capped.

(** C22. Nothing but the parameter changes. *)
Theorem C22_others_untouched : forall K V (O : KOps K) p q f m (s s' : st K V),
  multiply_update p f m s = Ok s' -> params_changed s s' /\ (p <> q -> param q s' = param q s).
Proof. exact (fun K V O p q f m s s' H => conj (multiply_changed p f m s s' H) (multiply_other p q f m s s' H)). Qed.
Print Assumptions C22_others_untouched.

(** C22. The declared minimum is not enforced. *)
Theorem C22_minimum_not_enforced : forall V (s : st R V) v m minimum, 0 < v <= m -> 0 < minimum -> s_sigma s = Fin v ->
  exists n s' w, times n (multiply_update PSigma (Fin (1 / 2)) (Fin m)) s = Ok s' /\ s_sigma s' = Fin w /\ w < minimum.
Proof. exact multiply_no_minimum. Qed.
Print Assumptions C22_minimum_not_enforced.

Example C22_example : param PAlpha (sst 3) = map Fin [3; 3] /\
  exists s', times 5 (multiply_update PAlpha (Fin (21 / 20)) (Fin 100000)) (sst 3) = Ok s'.
Proof. split; [reflexivity|apply times_ok]. Qed.

(** C23. A scheduler does its updates one after the other, and stops at the first exception. *)
Theorem C23_in_order : forall K V (us : list (st K V -> res (st K V))) s,
  (forall s', scheduler_update us s = Ok s' <-> in_order us s s') /\
  (forall e, scheduler_update us s = Err e <-> fails_in_order us s e).
Proof. exact @scheduler_spec. Qed.
Print Assumptions C23_in_order.

(** C23. The empty scheduler changes nothing; nesting is concatenation. *)
Theorem C23_empty : forall K V (s : st K V), scheduler_update [] s = Ok s.
Proof. exact (fun K V s => eq_refl). Qed.
Print Assumptions C23_empty.

Theorem C23_nested : forall K V us vs ws (s : st K V),
  scheduler_update (us ++ scheduler_update vs :: ws) s = scheduler_update (us ++ vs ++ ws) s.
Proof. exact @scheduler_nested. Qed.
Print Assumptions C23_nested.

(** C23. Lists of parameter updates only change parameters and never fail if their members do
    so; hence the theorems on optimize apply to them, in particular to the default scheduler. *)
Theorem C23_parameters_only : forall K V (us : list (st K V -> res (st K V))),
  Forall param_sched us -> Forall total_sched us -> param_sched (scheduler_update us) /\ total_sched (scheduler_update us).
Proof. exact (fun K V us H1 H2 => conj (scheduler_param us H1) (scheduler_total us H2)). Qed.
Print Assumptions C23_parameters_only.

Example C23_example : forall f m, Forall param_sched [@multiply_update R (list R) _ PAlpha f m] /\
  Forall total_sched [@multiply_update R (list R) _ PAlpha f m].
Proof. intros f m; split; constructor; [apply multiply_param_sched|constructor|apply multiply_total_sched|constructor]. Qed.

(** C24. Number of evaluations, shape, residual at an early stop. *)
Theorem C24_stops : forall f M low high max_it thresh, same_length M f -> length low = M -> length high = M ->
  let r := bisection_solve f low high max_it thresh in
  length (b_x r) = M /\ length (b_low r) = M /\ length (b_high r) = M /\ b_fx r = f (b_x r) /\
  (1 <= b_evals r <= max_it + 1)%nat /\
  ((b_evals r <= max_it)%nat -> forall i v, nth_error (f (b_x r)) i = Some (Fin v) -> Rabs v <= thresh).
Proof. exact bisection_stop. Qed.
Print Assumptions C24_stops.

(** C24. The returned value lies in the bracket (and is at least one resolution step away from
    its ends); the arrays low and high of the caller are left nested in the old bracket. *)
Theorem C24_bracket : forall f M low high max_it thresh i, same_length M f -> length low = M -> length high = M ->
  (i < M)%nat -> nth i low 0 <= nth i high 0 ->
  let r := bisection_solve f low high max_it thresh in
  let w := (nth i high 0 - nth i low 0) / 2 ^ b_evals r in
  nth i low 0 + w <= nth i (b_x r) 0 <= nth i high 0 - w /\
  nth i low 0 <= nth i (b_low r) 0 <= nth i (b_high r) 0 /\ nth i (b_high r) 0 <= nth i high 0.
Proof. exact bisection_bracket. Qed.
Print Assumptions C24_bracket.

Example C24_example : same_length 2 (per_run [fun x => 1 - x; fun x => 3 - 2 * x]) /\ length [0; 0] = 2%nat /\ nth 0 [0; 0] 0 <= nth 0 [4; 5] 0.
Proof. split; [apply (per_run_length [fun x => 1 - x; fun x => 3 - 2 * x])|split; [reflexivity|cbn; lra]]. Qed.

(** C25. One run: distance to a root after the evaluations done. *)
Theorem C25_accuracy : forall g low high max_it thresh root, nonincreasing g -> g root = 0 -> low <= root <= high -> 0 <= thresh ->
  let r := bisection_solve (per_run [g]) [low] [high] max_it thresh in
  exists x rt, b_x r = [x] /\ g rt = 0 /\ low <= rt <= high /\ Rabs (x - rt) <= (high - low) / 2 ^ b_evals r.
Proof. exact bisection_accuracy. Qed.
Print Assumptions C25_accuracy.

(** C25. Several runs: every bracket keeps its root. *)
Theorem C25_roots_kept : forall gs low high max_it thresh i g root, length low = length gs -> length high = length gs ->
  nth_error gs i = Some g -> nonincreasing g -> nth i low 0 <= root <= nth i high 0 -> g root = 0 ->
  let r := bisection_solve (per_run gs) low high max_it thresh in
  nth i (b_low r) 0 <= root <= nth i (b_high r) 0.
Proof. exact bisection_keeps_root. Qed.
Print Assumptions C25_roots_kept.

Example C25_example : nonincreasing (fun x => 1 - x) /\ (fun x => 1 - x) 1 = 0 /\ 0 <= 1 <= 5.
Proof. split; [intros x y; lra|lra]. Qed.

(** C26. For every iteration limit and tolerance there are two non-increasing functions with
    roots in the bracket such that the first run, solved alone, is returned with residual at
    most the tolerance, but solved together with the second it is returned with three times
    the tolerance. *)
Theorem C26_runs_not_independent_refuted : forall n t, (1 <= n)%nat -> 0 < t -> exists g1 g2 r1 r2,
  nonincreasing g1 /\ nonincreasing g2 /\ g1 r1 = 0 /\ g2 r2 = 0 /\ 0 <= r1 <= 1 /\ 0 <= r2 <= 1 /\
  exists x x' y, b_x (bisection_solve (per_run [g1]) [0] [1] n t) = [x] /\ Rabs (g1 x) <= t /\
    b_x (bisection_solve (per_run [g1; g2]) [0; 0] [1; 1] n t) = [x'; y] /\ Rabs (g1 x') = 3 * t.
Proof. exact dependence_spec. Qed.
Print Assumptions C26_runs_not_independent_refuted.

(** C27. With the default bracket and iteration limit every alpha set is above 3/2. *)
Theorem C27_alpha_floor : forall V eta (s s' : st R V) i row, length (s_energy s) = s_M s ->
  ess_update eta 100000 15 s = Ok s' -> (i < s_M s)%nat -> nth_error (s_alpha s') i = Some row ->
  exists a, row = [Fin a] /\ 3 / 2 < a.
Proof. exact ess_default_floor. Qed.
Print Assumptions C27_alpha_floor.

(** C27. In general alpha lies in [minimum + (maximum - minimum)/2^(max_it+1), maximum], where minimum is 1e-5. *)
Theorem C27_alpha_range : forall V eta maximum max_it (s s' : st R V) i row, length (s_energy s) = s_M s ->
  / 100000 <= maximum -> ess_update eta maximum max_it s = Ok s' -> (i < s_M s)%nat -> nth_error (s_alpha s') i = Some row ->
  exists a, row = [Fin a] /\ / 100000 + (maximum - / 100000) / 2 ^ (max_it + 1) <= a <= maximum.
Proof. exact ess_update_range. Qed.
Print Assumptions C27_alpha_range.

(** C27. One run: if the equation J_eff(alpha) = eta N has a solution in [1e-5, maximum], the alpha set solves it up to 1e-2, or is as close to
    a solution as the number of bisections allows. *)
Theorem C27_target_reached : forall V eta maximum max_it (s s' : st R V) E root, s_M s = 1%nat -> s_energy s = [E] -> admissible (/ 100000) E ->
  / 100000 <= root <= maximum -> Jeff root E = eta * INR (length E) -> ess_update eta maximum max_it s = Ok s' ->
  exists a, s_alpha s' = [[Fin a]] /\ / 100000 <= a <= maximum /\
    (Rabs (Jeff a E - eta * INR (length E)) <= / 100 \/
     exists rt, / 100000 <= rt <= maximum /\ Jeff rt E = eta * INR (length E) /\ Rabs (a - rt) <= (maximum - / 100000) / 2 ^ (max_it + 1)).
Proof. exact ess_reaches. Qed.
Print Assumptions C27_target_reached.

(** C27. For every number of particles k+1 >= 2, target eta and delta > 0 there are energies
    whose equation J_eff(alpha) = eta N has a solution, while at the alpha set by the update
    J_eff is below 1 + delta: the gap is below 1 - eta N + delta. *)
Theorem C27_target_missed_refuted : forall V k eta delta (s : st R V), (1 <= k)%nat -> 1 < eta * INR (S k) -> eta < 1 -> 0 < delta ->
  s_M s = 1%nat ->
  exists E a0, length E = S k /\ (forall e, In e E -> exists x, e = Fin x) /\
    0 < a0 /\ ess_gap eta E a0 = Fin 0 /\
    forall s', ess_update eta 100000 15 (set_energy [E] s) = Ok s' ->
    exists a v, s_alpha s' = [[Fin a]] /\ ess_gap eta E a = Fin v /\ v < 1 - eta * INR (S k) + delta.
Proof. exact ess_misses. Qed.
Print Assumptions C27_target_missed_refuted.

(** two particles with energies 0 and ln 2 and eta = 9/10: alpha = 1 is a solution *)
Example C27_reached_example : let s := set_energy [[Fin 0; Fin (ln 2)]] (sst1 3) in
  (exists s', ess_update (9 / 10) 100000 15 s = Ok s') /\ s_M s = 1%nat /\ s_energy s = [[Fin 0; Fin (ln 2)]] /\
  admissible (/ 100000) [Fin 0; Fin (ln 2)] /\ / 100000 <= 1 <= 100000 /\
  Jeff 1 [Fin 0; Fin (ln 2)] = 9 / 10 * INR (length [Fin 0; Fin (ln 2)]).
Proof. exact ess_reach_case. Qed.

Example C27_example : s_M (sst1 3) = 1%nat /\ 1 < / 2 * INR 10 /\ / 2 < 1 /\
  exists s', ess_update (/ 2) 100000 15 (sst1 3) = Ok s' /\ length (s_energy (sst1 3)) = 1%nat.
Proof. split; [reflexivity|split; [cbn; lra|split; [lra|eexists; split; reflexivity]]]. Qed.

(** C28. The function handed to the bisection is J_eff - eta N. *)
Theorem C28_gap : forall eta a E, admissible a E -> ess_gap eta E a = Fin (Jeff a E - eta * INR (length E)).
Proof. exact ess_gap_char. Qed.
Print Assumptions C28_gap.

Theorem C28_range : forall a E, admissible a E -> 1 <= Jeff a E <= INR (length E).
Proof. exact Jeff_range. Qed.
Print Assumptions C28_range.

Theorem C28_alpha_zero : forall E, admissible 0 E -> Jeff 0 E = INR (length E).
Proof. exact Jeff_zero. Qed.
Print Assumptions C28_alpha_zero.

Theorem C28_shift : forall a E k, admissible a E -> Jeff a (map (fun e => fadd e (Fin k)) E) = Jeff a E.
Proof. exact Jeff_shift. Qed.
Print Assumptions C28_shift.

Theorem C28_nonincreasing : forall a b E, admissible a E -> 0 <= a <= b -> Jeff b E <= Jeff a E.
Proof. exact Jeff_decreasing. Qed.
Print Assumptions C28_nonincreasing.

Example C28_example : admissible 2 exE /\ admissible 0 [Fin 3; Fin 1; Fin 2; Fin 2] /\ 0 <= 2 <= 3.
Proof. split; [apply exE_adm, Rlt_0_2|split; [exact exE0_adm|lra]]. Qed.
