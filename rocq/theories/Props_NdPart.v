(** * C118: particles of any shape *)
From Coq Require Import List Arith Bool Reals.
From Verif Require Import Scalar Np RVec Consensus Nd Cbo Polar NdPart NdPartSpec NdPartFacts NdPartFacts2 ExNdPart.
Import ListNotations.
Open Scope nat_scope.

(** C118. A step of CBO on an ensemble of shape (M, N, d1, ..., dq) does not raise, keeps the shape, and does to the flattened
    particles what a step does to vectors: one consensus point per run, the softmax-weighted mean
    of the flattened particles, and the same drift and noise, for every noise model. *)
Theorem C118_step : forall M N dims k lamda dt sigma energy x alpha z,
  shape energy = [M; N] -> shape x = M :: N :: dims -> shape alpha = [M; 1] -> shape z = M :: N :: dims ->
  exists x', nd_step k lamda dt sigma energy x alpha z = Ok x' /\ shape x' = M :: N :: dims /\
    (forall m n, m < M -> n < N -> exists c, cc_default (row energy m) (points x m) (get alpha [m; 0]) = [c] /\
       point x' m n = moved k lamda dt sigma (point x m n) c (point z m n)).
Proof. exact step_flat. Qed.
Print Assumptions C118_step.
Theorem C118_consensus : forall M N dims energy x alpha,
  shape energy = [M; N] -> shape x = M :: N :: dims -> shape alpha = [M; 1] ->
  exists c, nd_consensus energy x alpha = Ok c /\ shape c = M :: 1 :: dims /\
    (forall m, m < M -> 0 < N -> [point c m 0] = cc_default (row energy m) (points x m) (get alpha [m; 0])).
Proof. exact consensus_flat. Qed.
Print Assumptions C118_consensus.
Theorem C118_noise : forall M N dims k dt drift z, shape drift = M :: N :: dims -> shape z = M :: N :: dims ->
  exists nz, nd_noise k dt drift z = Ok nz /\ shape nz = M :: N :: dims /\
    (forall m n, m < M -> n < N -> point nz m n = noise_of k dt (point drift m n) (point z m n)).
Proof. exact noise_ok. Qed.
Print Assumptions C118_noise.

(** C118. The flattened particle holds every entry of the particle, at its position in memory, and nothing else. *)
Theorem C118_flattening : forall x m n,
  length (point x m n) = size (skipn 2 (shape x)) /\
  (forall ix, Forall2 lt ix (skipn 2 (shape x)) ->
     rank (skipn 2 (shape x)) ix < size (skipn 2 (shape x)) /\
     nth_error (point x m n) (rank (skipn 2 (shape x)) ix) = Some (get x (m :: n :: ix))).
Proof. exact (fun x m n => conj (point_length x m n) (fun ix H => conj (rank_lt _ ix H) (point_rank x m n ix H))). Qed.
Print Assumptions C118_flattening.

Example C118_hypotheses : shape te = [2; 3] /\ shape tx = 2 :: 3 :: [2; 3; 1] /\ shape ta = [2; 1] /\ shape ta3 = [2; 1; 1] /\ 1 < 2 /\ 2 < 3.
Proof. exact ex_hyps. Qed.
Example C118_point_case : point tx 1 2 = map (fun n => Fin (INR n)) [12000; 12010; 12020; 12100; 12110; 12120].
Proof. exact ex_point. Qed.
Example C118_rows_case : length (points tx 0) = 3 /\ row te 1 = map (fun n => Fin (INR n)) [1; 2; 3] /\ rank [2; 3; 1] [1; 2; 0] = 5.
Proof. exact ex_points. Qed.

(** C118. PolarCBO with the Gaussian kernel works for particles of any shape, with the kernel of the flattened particles. *)
Theorem C118_polar_gauss : forall M N dims k kappa lamda dt sigma energy x alpha kf z,
  shape energy = [M; N] -> shape x = M :: N :: dims -> shape alpha = [M; 1; 1] -> shape kf = [M; 1; 1] -> shape z = M :: N :: dims ->
  exists x', nd_polar_step k KGauss kappa lamda dt sigma energy x alpha kf z = Ok x' /\ shape x' = M :: N :: dims /\
    (forall m n, m < M -> n < N -> point x' m n = moved k lamda dt sigma (point x m n)
       (wmean (polar_coeffs (row energy m) (map (fun p => gauss_nl kappa p (point x m n)) (points x m)) (get alpha [m; 0; 0]) (get kf [m; 0; 0])) (points x m))
       (point z m n)).
Proof. exact polar_step_flat. Qed.
Print Assumptions C118_polar_gauss.
Theorem C118_polar_gauss_kernel : forall kappa u v, gauss_nl kappa (map Fin u) (map Fin v) = gauss_neg_log kappa u v.
Proof. exact gauss_nl_real. Qed.
Print Assumptions C118_polar_gauss_kernel.

(** C118, refuted for the other kernels: they take norms over the last axis only, and with two or more axes per particle the
    step always raises. *)
Theorem C118_polar_other_raises : forall k kn kappa lamda dt sigma energy x alpha kf z,
  kn <> KGauss -> 4 <= length (shape x) -> exists e, nd_polar_step k kn kappa lamda dt sigma energy x alpha kf z = Err e.
Proof. exact polar_other_raises. Qed.
Print Assumptions C118_polar_other_raises.
Theorem C118_polar_refuted : (exists x', nd_polar_step NIso KGauss (Fin 1%R) (Fin 1%R) (Fin 1%R) (Fin 1%R) te tx ta3 ta3 tx = Ok x') /\
  (exists e, nd_polar_step NIso KLaplace (Fin 1%R) (Fin 1%R) (Fin 1%R) (Fin 1%R) te tx ta3 ta3 tx = Err e).
Proof. exact ex_polar. Qed.
Print Assumptions C118_polar_refuted.

(** C118. With vectors as particles, update_diff and drift_mean are one number per run, over all particles of the run, and
    the criterion diff_tol answers for each run. *)
Theorem C118_update_diff_vector : forall M N d x xo, shape x = [M; N; d] -> shape xo = [M; N; d] ->
  exists u, nd_update_diff N x xo = Ok u /\ shape u = [M] /\
    (forall m, m < M -> get u [m] = fdiv (fnorm (concat (map2 (map2 fsub) (points x m) (points xo m)))) (Fin (INR N))).
Proof. exact update_diff_vec. Qed.
Print Assumptions C118_update_diff_vector.
Theorem C118_diff_tol_vector : forall M tol u, shape u = [M] -> nd_diff_tol M tol u = Ok (map (fun m => fltb (get u [m]) tol) (seq 0 M)).
Proof. exact diff_tol_vec. Qed.
Print Assumptions C118_diff_tol_vector.
Theorem C118_drift_mean_vector : forall M N d drift, shape drift = [M; N; d] ->
  exists u, nd_drift_mean drift = Ok u /\ shape u = [M] /\ (forall m, get u [m] = fmean (map fabs (concat (points drift m)))).
Proof. exact drift_mean_vec. Qed.
Print Assumptions C118_drift_mean_vector.

(** C118, refuted for all other particles: update_diff and drift_mean have one number per particle (or more), and diff_tol
    raises. *)
Theorem C118_update_diff_shape : forall M N dims a b x xo, shape x = M :: N :: dims ++ [a; b] -> shape xo = M :: N :: dims ++ [a; b] ->
  exists u, nd_update_diff N x xo = Ok u /\ shape u = M :: N :: dims.
Proof. exact update_diff_nd. Qed.
Print Assumptions C118_update_diff_shape.
Theorem C118_drift_mean_shape : forall M N dims a b dr, shape dr = M :: N :: dims ++ [a; b] ->
  exists u, nd_drift_mean dr = Ok u /\ shape u = M :: N :: dims.
Proof. exact drift_mean_nd. Qed.
Print Assumptions C118_drift_mean_shape.
Theorem C118_diff_tol_raises : forall M N dims tol u, 2 <= M \/ (M = 1 /\ 2 <= N) -> shape u = M :: N :: dims ->
  nd_diff_tol M tol u = Err ShapeError.
Proof. exact diff_tol_nd. Qed.
Print Assumptions C118_diff_tol_raises.
Theorem C118_diff_tol_refuted : exists u, nd_update_diff 3 tx tx = Ok u /\ shape u = [2; 3; 2] /\ forall tol, nd_diff_tol 2 tol u = Err ShapeError.
Proof. exact ex_diff_tol. Qed.
Print Assumptions C118_diff_tol_refuted.

(** C118. The counter of an objective adds all dimensions but the last: the number of particles only if all other dimensions
    of a particle multiply to one. *)
Theorem C118_num_eval : forall M N dims d, nd_num_eval (M :: N :: dims ++ [d]) = M * N * size dims.
Proof. exact num_eval_nd. Qed.
Print Assumptions C118_num_eval.

(** C118. Objectives promoted from one point (f_dim='1D') or a list of points ('2D') pass the check of the constructor for
    vectors; for particles with two or more axes only if there is one particle and all axes but the last have length one. *)
Theorem C118_promoted_vector : forall M N d, 1 <= N -> promoted_shape [M; N; d] = [M; N].
Proof. exact promoted_vec. Qed.
Print Assumptions C118_promoted_vector.
Theorem C118_promoted_accepted : forall M N dims e d, 1 <= M -> 1 <= N -> Forall (fun n => 1 <= n) dims -> 1 <= e ->
  (dims_accepted (M :: N :: dims ++ [e; d]) (promoted_shape (M :: N :: dims ++ [e; d])) = true <-> N = 1 /\ e = 1 /\ size dims = 1).
Proof. exact promoted_accepted. Qed.
Print Assumptions C118_promoted_accepted.
Theorem C118_promoted_refuted : nd_num_eval (shape tx) = 36 /\ promoted_shape (shape tx) = [12; 3] /\
  dims_accepted (shape tx) (promoted_shape (shape tx)) = false.
Proof. exact ex_objective. Qed.
Print Assumptions C118_promoted_refuted.
