(** * C92: update_norm, drift_mean and the criterion diff_tol of CBO *)
From Coq Require Import String List Arith Bool Reals Lra Lia.
From Verif Require Import Scalar Np State Pdyn Exec TermSpec HistSpec RVec ConsSpec Cbo CboSpec ExCbo TolSpec TolFacts ExTol.
Import ListNotations.
Open Scope R_scope.

(** C92. After a step update_diff of a run is the root of the sum of the squared distances its particles moved, post-processing included, divided by N;
    for all noise models, corrections, batches, active or not. *)
Theorem C92_update_norm : forall f k pp co b partial cat ks save,
  let c := cbo_cfg f k pp co b partial cat ks save in
  forall s log o s' m d X Y, exec c s log -> perms_valid o s -> step c o s = Ok s' -> ensemble_at s m d X -> ensemble_at s' m d Y ->
  nth_error (s_udiff s') m = Some (Fin (sqrt (moved_sq X Y) / INR (s_N s))).
Proof. exact update_norm_is. Qed.
Print Assumptions C92_update_norm.

(** So diff_tol = tol > 0 holds for a run exactly if the sum of the squared distances is below (N tol)^2, ... *)
Theorem C92_diff_tol : forall f k pp co b partial cat ks save,
  let c := cbo_cfg f k pp co b partial cat ks save in
  forall s log o s' m d X Y tol, exec c s log -> perms_valid o s -> step c o s = Ok s' -> ensemble_at s m d X -> ensemble_at s' m d Y -> 0 < tol ->
  (holds c s' (CDiffTol (Fin tol)) m = true <-> moved_sq X Y < (INR (s_N s) * tol) ^ 2).
Proof. exact diff_tol_means. Qed.
Print Assumptions C92_diff_tol.
(** ... in particular each particle moved by less than N tol. *)
Theorem C92_diff_tol_each : forall f k pp co b partial cat ks save,
  let c := cbo_cfg f k pp co b partial cat ks save in
  forall s log o s' m d X Y tol n x y, exec c s log -> perms_valid o s -> step c o s = Ok s' -> ensemble_at s m d X -> ensemble_at s' m d Y -> 0 < tol ->
  holds c s' (CDiffTol (Fin tol)) m = true -> nth_error X n = Some x -> nth_error Y n = Some y -> vnorm (vsub y x) < INR (s_N s) * tol.
Proof. exact diff_tol_each. Qed.
Print Assumptions C92_diff_tol_each.

(** The value recorded as drift_mean after a step is, run by run, the mean distance of the coordinates of the particles (before the step) to the consensus point. *)
Theorem C92_drift_mean : forall f k pp b partial cat ks save,
  let c := cbo_cfg f k pp NoCorr b partial cat ks save in
  forall s log o s' kk m d X, exec c s log -> perms_valid o s -> step c o s = Ok s' -> finite_obj d f -> finite_alpha s -> b = s_N s ->
  nth_error (s_active s) kk = Some m -> ensemble_at s m d X -> (1 <= d)%nat ->
  exists cs l a, s_cons s' = Some cs /\ nth_error (s_alpha s) m = Some [Fin a] /\ nth_error cs kk = Some [floats (gibbs_point a (map f (map floats X)) d X)] /\
    documented c "drift_mean" s s' = Some (HMean l) /\ nth_error l kk = Some (Fin (mean_distance d X (gibbs_point a (map f (map floats X)) d X))).
Proof. exact drift_mean_is. Qed.
Print Assumptions C92_drift_mean.

(** Noise-free unbatched CBO with 0 < lamda*dt <= 1 and diff_tol among the criteria: optimize stops after at most n + 1 steps
    if (lamda*dt (1-lamda*dt)^n)^2 times the squared diagonal of a box around the particles is below N tol^2, ... *)
Theorem C92_diff_tol_stops : forall f k pp b partial cat ks save d la dt tol lo hi sched os,
  finite_obj d f -> 0 < la * dt <= 1 -> 0 < tol -> Forall builtin ks -> In (CDiffTol (Fin tol)) ks ->
  (forall p, length p = d -> in_box d lo hi p -> pp (floats p) = floats p) -> alpha_sched sched -> (forall i : nat, finite_draws d (os i)) ->
  let c := cbo_cfg f k pp NoCorr b partial cat ks save in
  forall s log n, exec c s log -> finite_alpha s -> parameters la dt 0 s -> b = s_N s -> in_range os s ->
  (forall m, (m < s_M s)%nat -> exists X, ensemble_at s m d X /\ forall p, In p X -> in_box d lo hi p) ->
  (la * dt * (1 - la * dt) ^ n) ^ 2 * box_sq d lo hi < INR (s_N s) * tol ^ 2 ->
  forall fuel i, (S n <= fuel)%nat -> exists s', optimize_loop c (step c) sched os fuel i s = Some (Ok s').
Proof. exact (fun f k pp b partial cat ks save d la dt tol lo hi sched os => diff_tol_stops f k pp b partial cat ks save d la dt tol lo hi sched os). Qed.
Print Assumptions C92_diff_tol_stops.
(** ... so it always stops. *)
Theorem C92_diff_tol_terminates : forall f k pp b partial cat ks save d la dt tol lo hi sched os,
  finite_obj d f -> 0 < la * dt <= 1 -> 0 < tol -> Forall builtin ks -> In (CDiffTol (Fin tol)) ks ->
  (forall p, length p = d -> in_box d lo hi p -> pp (floats p) = floats p) -> alpha_sched sched -> (forall i : nat, finite_draws d (os i)) ->
  let c := cbo_cfg f k pp NoCorr b partial cat ks save in
  forall s log, exec c s log -> finite_alpha s -> parameters la dt 0 s -> b = s_N s -> in_range os s ->
  (forall m, (m < s_M s)%nat -> exists X, ensemble_at s m d X /\ forall p, In p X -> in_box d lo hi p) ->
  exists n, forall fuel i, (n <= fuel)%nat -> exists s', optimize_loop c (step c) sched os fuel i s = Some (Ok s').
Proof. exact (fun f k pp b partial cat ks save d la dt tol lo hi sched os => diff_tol_terminates f k pp b partial cat ks save d la dt tol lo hi sched os). Qed.
Print Assumptions C92_diff_tol_terminates.
Example C92_example : exists s s1, exec tolc s [] /\ finite_obj 2 sqf /\ finite_alpha s /\ parameters 1 (1 / 2) 0 s /\ 3%nat = s_N s /\ in_range (fun _ => corc) s /\
  (forall m, (m < s_M s)%nat -> exists X, ensemble_at s m 2 X /\ forall p, In p X -> in_box 2 (fun _ => -1) (fun _ => 4) p) /\
  Forall builtin (c_crit tolc) /\ In (CDiffTol (Fin (1 / 100))) (c_crit tolc) /\ alpha_sched tsched /\ (forall i : nat, finite_draws 2 ((fun _ => corc) i)) /\
  nth_error (s_active s) 0 = Some 0%nat /\ ensemble_at s 0 2 cX /\ perms_valid corc s /\ step tolc corc s = Ok s1.
Proof. exact tol_case. Qed.
