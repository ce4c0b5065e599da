(** * C87: the functions, gradients, conjugate maps and Hessians of the mirror maps *)
From Coq Require Import List Arith Reals Lra Lia.
From Verif Require Import Scalar Np RVec ConsSpec Cbo CboSpec MatSqrt MatSpec MirrorMaps MirrorSpec ConSpec ConMultiSpec Potentials PotSpec PotFacts PotMaps PotConj PotDefect.
Import ListNotations.
Open Scope R_scope.

(** C87. __call__ is the documented function. *)
Theorem C87_value_l2 : forall lamda x, mm_call (L2 lamda) (floats x) = Some (Fin (sep (half_sq lamda) x)).
Proof. exact l2_value. Qed.
Print Assumptions C87_value_l2.
Theorem C87_value_elastic_net : forall delta lamda x, 0 < delta -> mm_call (ElasticNet delta lamda) (floats x) = Some (Fin (sep (net delta lamda) x)).
Proof. exact net_value. Qed.
Print Assumptions C87_value_elastic_net.
Theorem C87_value_log_barrier : forall x, open_box x -> mm_call LogBarrierBox (floats x) = Some (Fin (sep log_box x)).
Proof. exact log_value. Qed.
Print Assumptions C87_value_log_barrier.
Theorem C87_value_nonsmooth_barrier : forall x, open_box x -> mm_call NonsmoothBarrier (floats x) = Some (Fin (sep rational_barrier x)).
Proof. exact barrier_value. Qed.
Print Assumptions C87_value_nonsmooth_barrier.
Theorem C87_value_entropy : forall x, all_coord (fun t => 0 < t) x -> mm_call Entropy (floats x) = Some (Fin (sep entropy x)).
Proof. exact entropy_value. Qed.
Print Assumptions C87_value_entropy.
Theorem C87_value_ball : forall r center x, vnorm x <= r -> mm_call (ProjectionBall r center) (floats x) = Some (Fin (sep (half_sq 1) x)).
Proof. exact ball_value. Qed.
Print Assumptions C87_value_ball.

(** C87. grad is its gradient ... *)
Theorem C87_gradient_l2 : forall lamda x, exists g, mm_grad (L2 lamda) (floats x) = floats g /\ gradient_at (sep (half_sq lamda)) x g.
Proof. exact l2_gradient. Qed.
Print Assumptions C87_gradient_l2.
Theorem C87_gradient_elastic_net : forall delta lamda x, 0 < delta -> all_coord (fun t => t <> 0) x ->
  exists g, mm_grad (ElasticNet delta lamda) (floats x) = floats g /\ gradient_at (sep (net delta lamda)) x g.
Proof. exact net_gradient. Qed.
Print Assumptions C87_gradient_elastic_net.
Theorem C87_gradient_log_barrier : forall x, open_box x -> exists g, mm_grad LogBarrierBox (floats x) = floats g /\ gradient_at (sep log_box) x g.
Proof. exact log_gradient. Qed.
Print Assumptions C87_gradient_log_barrier.
Theorem C87_gradient_nonsmooth_barrier : forall x, open_box x -> all_coord (fun t => t <> 0) x ->
  exists g, mm_grad NonsmoothBarrier (floats x) = floats g /\ gradient_at (sep rational_barrier) x g.
Proof. exact barrier_gradient. Qed.
Print Assumptions C87_gradient_nonsmooth_barrier.
Theorem C87_gradient_weighted_l2 : forall A x, gradient_at (wl2_call A) x (wl2_grad A x).
Proof. exact wl2_gradient. Qed.
Print Assumptions C87_gradient_weighted_l2.

(** ... but not of Entropy, at any point: each coordinate is too small because of the added eps. *)
Theorem C87_gradient_entropy_refuted : forall x, x <> [] -> all_coord (fun t => 0 < t) x ->
  exists g h, mm_grad Entropy (floats x) = floats g /\ gradient_at (sep entropy) x h /\ forall i, (i < length x)%nat -> coord i g < coord i h.
Proof. exact entropy_not_gradient. Qed.
Print Assumptions C87_gradient_entropy_refuted.

(** C87. grad_conj y is a point where <y, .> - F is largest. *)
Theorem C87_conjugate_l2 : forall lamda y, 0 < lamda -> exists x, mm_conj (L2 lamda) (floats y) = floats x /\ conjugate_point anywhere (sep (half_sq lamda)) y x.
Proof. exact l2_conjugate. Qed.
Print Assumptions C87_conjugate_l2.
Theorem C87_conjugate_elastic_net : forall delta lamda y, 0 < delta -> 0 <= lamda ->
  exists x, mm_conj (ElasticNet delta lamda) (floats y) = floats x /\ conjugate_point anywhere (sep (net delta lamda)) y x.
Proof. exact net_conjugate. Qed.
Print Assumptions C87_conjugate_elastic_net.
Theorem C87_conjugate_log_barrier : forall y, all_coord (fun t => t <> 0) y -> exists x, mm_conj LogBarrierBox (floats y) = floats x /\ conjugate_point open_box (sep log_box) y x.
Proof. exact log_conjugate. Qed.
Print Assumptions C87_conjugate_log_barrier.
Theorem C87_conjugate_nonsmooth_barrier : forall y, exists x, mm_conj NonsmoothBarrier (floats y) = floats x /\ conjugate_point open_box (sep rational_barrier) y x.
Proof. exact barrier_conjugate. Qed.
Print Assumptions C87_conjugate_nonsmooth_barrier.
Theorem C87_conjugate_ball : forall r y, 0 < r -> exists x, mm_conj (ProjectionBall r [0]) (floats y) = floats x /\
  conjugate_point (fun p => vnorm p <= r) (sep (half_sq 1)) y x.
Proof. exact ball_conjugate. Qed.
Print Assumptions C87_conjugate_ball.

(** C87. For Entropy it is the point where that is smallest; a largest value does not exist. *)
Theorem C87_conjugate_entropy_refuted : forall y, exists x, mm_conj Entropy (floats y) = floats x /\ length x = length y /\ all_coord (fun t => 0 < t) x /\
  forall p, length p = length y -> all_coord (fun t => 0 < t) p -> dot y x - sep entropy x <= dot y p - sep entropy p.
Proof. exact entropy_conj_min. Qed.
Print Assumptions C87_conjugate_entropy_refuted.
Theorem C87_conjugate_entropy_none : forall y x, y <> [] -> ~ conjugate_point (all_coord (fun t => 0 < t)) (sep entropy) y x.
Proof. exact entropy_no_conjugate. Qed.
Print Assumptions C87_conjugate_entropy_none.

(** C87. grad_conj of weighted_L2 inverts grad for A + A^T = 2 I only. *)
Theorem C87_weighted_l2_refuted : forall A d, (forall x, length x = d -> wl2_conj A (wl2_grad A x) = x) <->
  forall i j, (i < d)%nat -> (j < d)%nat -> A i j + A j i = 2 * (if Nat.eqb i j then 1 else 0).
Proof. exact wl2_roundtrip. Qed.
Print Assumptions C87_weighted_l2_refuted.

(** C87. Bregman distances are not negative ... *)
Theorem C87_bregman_l2 : forall lamda p q, 0 <= lamda -> length p = length q ->
  exists g, mm_grad (L2 lamda) (floats q) = floats g /\ bregman (L2 lamda) (floats p) (floats q) = Some (Fin (breg (sep (half_sq lamda)) g p q)) /\ 0 <= breg (sep (half_sq lamda)) g p q.
Proof. exact l2_bregman. Qed.
Print Assumptions C87_bregman_l2.
Theorem C87_bregman_elastic_net : forall delta lamda p q, 0 < delta -> 0 <= lamda -> length p = length q ->
  exists g, mm_grad (ElasticNet delta lamda) (floats q) = floats g /\ bregman (ElasticNet delta lamda) (floats p) (floats q) = Some (Fin (breg (sep (net delta lamda)) g p q)) /\ 0 <= breg (sep (net delta lamda)) g p q.
Proof. exact net_bregman. Qed.
Print Assumptions C87_bregman_elastic_net.
Theorem C87_bregman_log_barrier : forall p q, open_box p -> open_box q -> length p = length q ->
  exists g, mm_grad LogBarrierBox (floats q) = floats g /\ bregman LogBarrierBox (floats p) (floats q) = Some (Fin (breg (sep log_box) g p q)) /\ 0 <= breg (sep log_box) g p q.
Proof. exact log_bregman. Qed.
Print Assumptions C87_bregman_log_barrier.
Theorem C87_bregman_nonsmooth_barrier : forall p q, open_box p -> open_box q -> length p = length q ->
  exists g, mm_grad NonsmoothBarrier (floats q) = floats g /\ bregman NonsmoothBarrier (floats p) (floats q) = Some (Fin (breg (sep rational_barrier) g p q)) /\ 0 <= breg (sep rational_barrier) g p q.
Proof. exact barrier_bregman. Qed.
Print Assumptions C87_bregman_nonsmooth_barrier.

(** ... those of Entropy are negative for all p <= q, p <> q. *)
Theorem C87_bregman_entropy_refuted : forall p q, length p = length q -> p <> q -> all_coord (fun t => 0 < t) p ->
  (forall i, (i < length q)%nat -> coord i p <= coord i q) -> exists g, mm_grad Entropy (floats q) = floats g /\
  bregman Entropy (floats p) (floats q) = Some (Fin (breg (sep entropy) g p q)) /\ breg (sep entropy) g p q < 0.
Proof. exact entropy_bregman_negative. Qed.
Print Assumptions C87_bregman_entropy_refuted.

(** C87. On arrays of particles NonsmoothBarrier sums over all of them, and the Bregman distance of a particle depends on the others. *)
Theorem C87_bregman_array_refuted : forall ps qs k p q, length ps = length qs -> (forall x, In x ps -> open_box x) -> (forall x, In x qs -> open_box x) ->
  nth_error ps k = Some p -> nth_error qs k = Some q -> length p = length q ->
  exists D, bregman NonsmoothBarrier (floats p) (floats q) = Some (Fin D) /\
    nth_error (nb_bregman (map floats ps) (map floats qs)) k =
      Some (Fin (D + (Rsum (map (sep rational_barrier) ps) - sep rational_barrier p) - (Rsum (map (sep rational_barrier) qs) - sep rational_barrier q))).
Proof. exact nb_bregman_mixed. Qed.
Print Assumptions C87_bregman_array_refuted.

(** C87. hessian is the derivative of grad ... *)
Theorem C87_hessian_log_barrier : forall x, open_box x -> hess_ok LogBarrierBox open_box x.
Proof. exact log_hessian. Qed.
Print Assumptions C87_hessian_log_barrier.
Theorem C87_hessian_nonsmooth_barrier : forall x, open_box x -> all_coord (fun t => t <> 0) x -> hess_ok NonsmoothBarrier open_box x.
Proof. exact barrier_hessian. Qed.
Print Assumptions C87_hessian_nonsmooth_barrier.
Theorem C87_hessian_weighted_l2 : forall A x, hessian_at (wl2_call A) x (wl2_hess A).
Proof. exact wl2_hessian. Qed.
Print Assumptions C87_hessian_weighted_l2.

(** ... except for L2, where lamda is missing. *)
Theorem C87_hessian_l2_refuted : forall lamda x, lamda <> 1 -> exists g H Hf, (forall p, mm_grad (L2 lamda) (floats p) = floats (g p)) /\ jacobian_at g x H /\
  mm_hess (L2 lamda) (floats x) = Some Hf /\ forall i, (i < length x)%nat -> Hf i i <> Fin (H i i).
Proof. exact l2_hessian_wrong. Qed.
Print Assumptions C87_hessian_l2_refuted.

(** C87. ProjectionBall ignores its centre: far from the origin every projected point has an infinite value. *)
Theorem C87_ball_center_refuted : forall r center y, 0 < r -> length center = length y -> 2 * r + / 10 ^ 5 < vnorm center ->
  exists p, mm_conj (ProjectionBall r center) (floats y) = floats p /\ ball r center p /\ mm_call (ProjectionBall r center) (floats p) = Some PInf.
Proof. exact ball_center_infinite. Qed.
Print Assumptions C87_ball_center_refuted.

Example C87_case : open_box [1/2; -1/3] /\ all_coord (fun t => t <> 0) [1/2; -1/3] /\
  mm_call NonsmoothBarrier (floats [1/2; -1/3]) = Some (Fin (3/2)) /\ sep (net 1 2) [1; -2] = 17 / 2 /\
  2 * 1 + / 10 ^ 5 < vnorm [3; 4].
Proof. exact ex_pot. Qed.
Example C87_entropy_case : length [1; 2] = length [2; 2] /\ [1; 2] <> [2; 2] /\ all_coord (fun t => 0 < t) [1; 2] /\
  forall i, (i < 2)%nat -> coord i [1; 2] <= coord i [2; 2].
Proof. exact ex_entropy. Qed.
(** two particles, the first with p = q = 0 has the distance 1 *)
Example C87_array_case : exists D, (forall x, In x [[0]; [1/2]] -> open_box x) /\ (forall x, In x [[0]; [0]] -> open_box x) /\
  bregman NonsmoothBarrier (floats [0]) (floats [0]) = Some (Fin 0) /\
  nth_error (nb_bregman (map floats [[0]; [1/2]]) (map floats [[0]; [0]])) 0 = Some (Fin D) /\ D = 1.
Proof. exact ex_nb_array. Qed.
