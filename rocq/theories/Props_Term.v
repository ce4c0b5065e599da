(** * C04 - C07, C09 - C11: termination, frozen runs, evaluation counters *)
From Coq Require Import List Arith Bool ZArith Lia.
From Verif Require Import Scalar Np State Pdyn Exec PdynOk TermSpec TermFacts RunFacts Script ExZ.
Import ListNotations.
Open Scope nat_scope.

(** C04. With max_it = n as the only criterion, optimize (any parameter scheduler, any random
    inputs) performs exactly n - it steps: it does not stop before, and it stops with
    it = max n it.  [fuel] is the number of steps allowed. *)
Theorem C04_exactly_max_it_steps :
  forall (K V : Type) (O : KOps K) (c : cfg K V) sched os n s log fuel i,
  exec c s log -> 1 <= s_M s -> plain c (s_N s) ->
  param_sched sched -> total_sched sched -> in_range os s ->
  c_crit c = [CMaxIt (Some n)] ->
  (fuel < n - s_it s -> optimize_loop c (step c) sched os fuel i s = None) /\
  (n - s_it s <= fuel -> exists s', optimize_loop c (step c) sched os fuel i s = Some (Ok s') /\
                                    s_it s' = max n (s_it s)).
Proof.
  exact (fun K V O c sched os n s log fuel i E HM G PS TS IR HC =>
           maxit_exact c sched os n fuel i s (exec_wf _ _ _ E) HM G PS TS IR HC).
Qed.
Print Assumptions C04_exactly_max_it_steps.

(** C04. With max_it = n among other built-in criteria, it performs at most n - it steps. *)
Theorem C04_at_most_max_it_steps :
  forall (K V : Type) (O : KOps K) (c : cfg K V) sched os n s log fuel i,
  exec c s log -> plain c (s_N s) -> param_sched sched -> total_sched sched -> in_range os s ->
  Forall builtin (c_crit c) -> In (CMaxIt (Some n)) (c_crit c) -> n - s_it s <= fuel ->
  exists s', optimize_loop c (step c) sched os fuel i s = Some (Ok s') /\ s_it s' <= max n (s_it s).
Proof.
  exact (fun K V O c sched os n s log fuel i E G PS TS IR HB HI HF =>
           maxit_bound c sched os n fuel i s (exec_wf _ _ _ E) G PS TS IR HB HI HF).
Qed.
Print Assumptions C04_at_most_max_it_steps.

(** C04. Without criterion, or with max_it = None only, it never stops. *)
Theorem C04_no_criterion_never_stops :
  forall (K V : Type) (O : KOps K) (c : cfg K V) sched os s log fuel i,
  exec c s log -> 1 <= s_M s -> plain c (s_N s) ->
  param_sched sched -> total_sched sched -> in_range os s ->
  (c_crit c = [] \/ c_crit c = [CMaxIt None]) ->
  optimize_loop c (step c) sched os fuel i s = None.
Proof.
  exact (fun K V O c sched os s log fuel i E HM G PS TS IR HC =>
           nocrit_never_stops c sched os fuel i s (exec_wf _ _ _ E) HM G PS TS IR HC).
Qed.
Print Assumptions C04_no_criterion_never_stops.

(** C05. terminate(): the active runs are exactly the runs meeting no criterion, in increasing
    order; the result is true iff all runs meet one; term_reason of a run lists the indices
    of the criteria it meets, and keeps its old value if it meets none; nothing else changes. *)
Theorem C05_active_runs : forall (K V : Type) (O : KOps K) (c : cfg K V) s log b s',
  exec c s log -> terminate c s = Ok (b, s') ->
  s_active s' = filter (fun m => negb (meets_some c s m)) (seq 0 (s_M s)) /\
  (b = true <-> forall m, m < s_M s -> meets_some c s m = true) /\
  (forall m, m < s_M s -> nth_error (s_reason s') m =
     if meets_some c s m then Some (Some (met_criteria c s m)) else nth_error (s_reason s) m) /\
  s' = set_reason (s_reason s') (set_active (s_active s') s).
Proof.
  exact (fun K V O c s log b s' E H => terminate_spec c s b s' (exec_wf _ _ _ E) H).
Qed.
Print Assumptions C05_active_runs.

(** C06. One step leaves a terminated run as it is: energies, best pair, evaluation count and
    alpha are unchanged, positions are only post-processed once more. *)
Theorem C06_terminated_run_frozen :
  forall (K V : Type) (O : KOps K) (OL : KOrd K) (c : cfg K V) s log (o : orc V) s' m,
  exec c s log -> no_nan c -> plain c (s_N s) -> perms_valid o s -> step c o s = Ok s' ->
  m < s_M s -> ~ In m (s_active s) ->
  nth_error (s_x s') m = option_map (map (c_pp c)) (nth_error (s_x s) m) /\
  nth_error (s_energy s') m = nth_error (s_energy s) m /\
  nth_error (s_be s') m = nth_error (s_be s) m /\
  nth_error (s_bp s') m = nth_error (s_bp s) m /\
  nth_error (s_nfe s') m = nth_error (s_nfe s) m /\
  nth_error (s_alpha s') m = nth_error (s_alpha s) m.
Proof. exact @frozen_step. Qed.
Print Assumptions C06_terminated_run_frozen.

(** C06. ... and if post-processing is idempotent, after any step it changes nothing: the
    positions of a terminated run stay exactly where they were. *)
Theorem C06_terminated_positions_fixed :
  forall (K V : Type) (O : KOps K) (OL : KOrd K) (c : cfg K V) s log (o o' : orc V) s' s'' m,
  exec c s log -> no_nan c -> plain c (s_N s) -> (forall v, c_pp c (c_pp c v) = c_pp c v) ->
  perms_valid o s -> step c o s = Ok s' -> perms_valid o' s' -> step c o' s' = Ok s'' ->
  m < s_M s -> ~ In m (s_active s') ->
  nth_error (s_x s'') m = nth_error (s_x s') m.
Proof. exact @frozen_positions. Qed.
Print Assumptions C06_terminated_positions_fixed.

(** C07. Between any two checks of termination in one optimisation the active set can only
    shrink (built-in criteria, positive diff_tol, non-negative time steps). *)
Theorem C07_active_set_shrinks :
  forall (K V : Type) (O : KOps K) (OL : KOrd K) (A : KAddMono K) (c : cfg K V) sched s log n1 n2 q1 q2 b1 b2 a1 a2,
  exec c s log -> no_nan c -> plain c (s_N s) ->
  (forall v, c_pp c (c_pp c v) = c_pp c v) ->
  (forall row, c_norm c (map2 (c_vsub c) row row) = Fin k0) ->
  Forall positive_tol (c_crit c) ->
  param_sched sched -> (forall q q', sched q = Ok q' -> nonneg_dt q') -> nonneg_dt s ->
  loop c sched s n1 q1 -> loop c sched q1 n2 q2 ->
  terminate c q1 = Ok (b1, a1) -> terminate c q2 = Ok (b2, a2) ->
  incl (s_active a2) (s_active a1).
Proof. exact @active_shrinks. Qed.
Print Assumptions C07_active_set_shrinks.

(** C09. A step never raises, whatever runs are active and however batches are drawn. *)
Theorem C09_step_never_raises :
  forall (K V : Type) (O : KOps K) (c : cfg K V) s log (o : orc V),
  exec c s log -> plain c (s_N s) -> perms_valid o s -> exists s', step c o s = Ok s'.
Proof. exact @exec_step_good. Qed.
Print Assumptions C09_step_never_raises.

(** C10. With max_eval = B no run ever uses more than B evaluations. *)
Theorem C10_budget_respected :
  forall (K V : Type) (O : KOps K) (c : cfg K V) sched s log n s' B,
  exec c s log -> plain c (s_N s) -> param_sched sched -> In (CMaxEval B) (c_crit c) ->
  (forall m e, nth_error (s_nfe s) m = Some e -> e <= B) ->
  loop c sched s n s' -> forall m e, nth_error (s_nfe s') m = Some e -> e <= B.
Proof. exact @budget. Qed.
Print Assumptions C10_budget_respected.

(** C10. A run stopped by max_eval = B alone could not have afforded another batch. *)
Theorem C10_budget_used_up :
  forall (K V : Type) (O : KOps K) (c : cfg K V) s log b s' B m e,
  exec c s log -> c_crit c = [CMaxEval B] -> terminate c s = Ok (b, s') -> m < s_M s ->
  ~ In m (s_active s') -> nth_error (s_nfe s) m = Some e -> B < e + c_bsize c.
Proof. exact @budget_used_up. Qed.
Print Assumptions C10_budget_used_up.

(** C11. The counters add up to the number of points the objective was evaluated on, which is
    the number of logged points (plus the M*N points of the check at construction, if it was made). *)
Theorem C11_counters_add_up :
  forall (K V : Type) (O : KOps K) (c : cfg K V) s log,
  exec c s log -> plain c (s_N s) ->
  list_sum (s_nfe s) = s_fcalls s /\
  (s_fcalls s = length log \/ s_fcalls s = s_M s * s_N s + length log).
Proof. exact @exec_counts. Qed.
Print Assumptions C11_counters_add_up.

(** The hypotheses are met: two runs, batches, run 1 terminated (state of zex1) ... *)
Example C05_C06_C09_C11_example : exists s log, exec zc1 s log /\ no_nan zc1 /\ plain zc1 (s_N s) /\
  s_M s = 2 /\ s_N s = 3 /\ s_active s = [0] /\ s_it s = 3 /\
  s_be s = [Fin 16; Fin 4]%Z /\ s_bp s = [-4; 2]%Z /\ s_bcp s = [-6; 0]%Z /\
  s_nfe s = [6; 4] /\ s_fcalls s = 10 /\ length log = 10 /\ s_reason s = [None; Some [0]].
Proof. exact zex1. Qed.

(** ... and the side conditions of C04, C07 and C10 hold for it and for a scheduler that sets dt. *)
Example C04_C07_C10_example :
  param_sched zsched /\ total_sched zsched /\
  (forall q q', zsched q = Ok q' -> nonneg_dt q') /\
  (forall v, c_pp zc1 (c_pp zc1 v) = c_pp zc1 v) /\
  (forall row, c_norm zc1 (map2 (c_vsub zc1) row row) = Fin 0%Z) /\
  Forall positive_tol (c_crit zc1) /\ Forall builtin (c_crit zc1) /\
  In (CMaxIt (Some 20)) (c_crit zc1) /\
  exists s log, exec zc1 s log /\ log = [] /\ s_nfe s = [0; 0] /\ nonneg_dt s /\
  exists s', loop zc1 zsched s 2 s' /\ s_nfe s' = [4; 4] /\
    exists a, terminate zc1 s' = Ok (false, a) /\ s_active a = [0].
Proof. exact zterm_example. Qed.
