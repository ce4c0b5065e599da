(** * C124: noise-free CBO in floating-point arithmetic *)
From Coq Require Import List Arith Bool Reals ZArith.
From Flocq Require Import Core.
From Verif Require Import Scalar Np State Pdyn Exec RVec ConsSpec PostProc Cbo CboSpec Rounding RoundSpec ExRound ClockSpec CboRound CboRoundSpec CboRoundFacts CboRoundFacts2 ExCboRound.
Import ListNotations.
Open Scope R_scope.

(** C124. A computed move differs from the exact one by at most 5u(B+C) + 4eta in every coordinate. *)
Theorem C124_move : forall u eta rnd, rounding u eta rnd -> forall k x c B C, -1 <= k <= 0 -> Rabs x <= B -> Rabs c <= C ->
  Rabs (rnd (x + rnd (k * rnd (x - c))) - (x + k * (x - c))) <= 5 * u * (B + C) + 4 * eta.
Proof. exact step_error_r. Qed.
Print Assumptions C124_move.
(** One step without mini-batches puts every particle near the place where the exact step from the same ensemble puts it:
    x - lamda dt (x - m), clipped to [-T, T], where m is the exact Gibbs mean of the ensemble. *)
Theorem C124_step : forall u v eta rnd Exp Log sum, rounding u eta rnd -> arithmetic u v eta rnd Exp Log sum -> positive_sums sum ->
  forall f k T b partial cat ks save, 0 <= T <= float_max ->
  let c := cbo_cfg_r rnd Exp Log sum f k (pp_point T false) b partial cat ks save in
  forall d F A s log o s' m X a la dt kap, objective_within d T F f -> INR b * (u + v) + u * (A * F) <= / 128 ->
  @exec R vec (KOps_rounded rnd) c s log -> b = s_N s -> perms_valid o s -> finite_draws d o -> parameters la dt 0 s ->
  nth_error (s_alpha s) m = Some [Fin a] -> Rabs a <= A -> In m (s_active s) -> ensemble_at s m d X -> within T X -> kap = - rnd (- la * dt) -> 0 <= kap <= 1 ->
  @step R vec (KOps_rounded rnd) c o s = Ok s' ->
  exists Y, ensemble_at s' m d Y /\ forall n x y l, nth_error X n = Some x -> nth_error Y n = Some y -> (l < d)%nat ->
    Rabs (coord l y - Rmax (- T) (Rmin T (coord l x - kap * (coord l x - gibbs_mean a (map f (map floats X)) X l)))) <=
      kap * (67 * (INR b * (u + v) + u * (A * F)) * T + 4 * INR b * eta) + (15 * u * (T + 2 * INR b * eta) + 4 * eta).
Proof. exact step_exact_r. Qed.
Print Assumptions C124_step.
Example C124_step_example : exists s s', @exec R vec (KOps_rounded b64) rcf s [] /\ 2%nat = s_N s /\ perms_valid dorc s /\ finite_draws 1 dorc /\ parameters 1 (1 / 4) 0 s /\ nth_error (s_alpha s) 0 = Some [Fin 1] /\ In 0%nat (s_active s) /\
  ensemble_at s 0 1 [[1 / 2]; [near]] /\ @step R vec (KOps_rounded b64) rcf dorc s = Ok s'.
Proof. exact step_case. Qed.
(** n steps bring particles together at the exact rate, down to a distance of the order of u T / (lamda dt). *)
Theorem C124_contraction : forall u v eta rnd Exp Log sum, rounding u eta rnd -> arithmetic u v eta rnd Exp Log sum -> positive_sums sum ->
  forall f k T b partial cat ks save, 0 <= T <= float_max ->
  let c := cbo_cfg_r rnd Exp Log sum f k (pp_point T false) b partial cat ks save in
  forall d F A s log m n s' X la dt kap, objective_within d T F f -> INR b * (u + v) + u * (A * F) <= / 128 ->
  @exec R vec (KOps_rounded rnd) c s log -> alpha_within A s -> parameters la dt 0 s -> b = s_N s \/ partial = false ->
  ensemble_at s m d X -> within T X -> kap = - rnd (- la * dt) -> 0 < kap <= 1 -> rounded_steps rnd A c m d s n s' ->
  exists Y, ensemble_at s' m d Y /\ within T Y /\ nearer d ((1 - kap) ^ n) ((30 * u * (T + 2 * INR b * eta) + 8 * eta) / kap) X Y.
Proof. exact contraction_r. Qed.
Print Assumptions C124_contraction.
Example C124_hypotheses : rounding u64 eta64 b64 /\ arithmetic u64 u64 eta64 b64 exp64 log64 (lsum b64) /\ positive_sums (lsum b64) /\ 0 <= 10 ^ 8 <= float_max /\ objective_within 1 (10 ^ 8) 2048 step_f /\
  INR 2 * (u64 + u64) + u64 * (1 * 2048) <= / 128 /\ within (10 ^ 8) [[1 / 2]; [near]] /\ 0 < - b64 (- (1) * (1 / 4)) <= 1.
Proof. exact round_case. Qed.

(** In double precision the exact contraction is refuted: two different particles at distance 2^-53 never meet with lamda*dt = 1/4, *)
Theorem C124_meeting_refuted : exists s, @exec R vec (KOps_rounded b64) rcf s [] /\ alpha_within 1 s /\ parameters 1 (1 / 4) 0 s /\ s_N s = 2%nat /\ ensemble_at s 0 1 [[1 / 2]; [near]] /\ 1 / 2 < near /\
  forall n, exists s', rounded_steps b64 1 rcf 0 1 s n s' /\ ensemble_at s' 0 1 [[1 / 2]; [near]].
Proof. exact never_meet. Qed.
Print Assumptions C124_meeting_refuted.
(** and the hull of the particles is left: two positive particles, and one step puts one of them at 0. *)
Theorem C124_hull_refuted : exists s s', @exec R vec (KOps_rounded b64) rcf s [] /\ alpha_within 1 s /\ parameters 1 1 0 s /\ s_N s = 2%nat /\ ensemble_at s 0 1 [[bpow radix2 (-60)]; [1]] /\
  rounded_steps b64 1 rcf 0 1 s 1 s' /\ ensemble_at s' 0 1 [[bpow radix2 (-60)]; [0]].
Proof. exact leaves_hull. Qed.
Print Assumptions C124_hull_refuted.
