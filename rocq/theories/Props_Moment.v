(** * C81, C82: moments of one step, CBS *)
From Coq Require Import String List Arith Bool Reals Lia Lra.
From Verif Require Import Scalar Np State Pdyn Exec RVec ConsSpec Cbo CboSpec Nd MatSqrt MatSpec CovCbo MomentSpec MomentFacts CovMoment Cbs CbsFacts ExCbo ExMoment.
Import ListNotations.
Open Scope R_scope.
Open Scope list_scope.

(** C81. One unbatched CBO step from any reachable state.  If the draws of a particle have mean 0, variance v and are
    uncorrelated, its new position has mean x - lamda*dt*(x - c), c the Gibbs mean, and a diagonal covariance
    sigma^2*dt*v times 1 (constant), |x-c|^2 (isotropic), (x_i-c_i)^2 (anisotropic noise); its mean square distance to c is
    ((1-lamda*dt)^2 + sigma^2*dt*v*d)|x-c|^2 (isotropic), ((1-lamda*dt)^2 + sigma^2*dt*v)|x-c|^2 (anisotropic). *)
Theorem C81_moments : forall Om (A : average Om) f k b partial cat ks save s log m d X la dt sg a kk n x v (o : Om -> orc vec) (xi : Om -> list R),
  let c := cbo_cfg f k (fun p => p) NoCorr b partial cat ks save in
  exec c s log -> finite_obj d f -> parameters la dt sg s -> b = s_N s -> nth_error (s_active s) kk = Some m -> ensemble_at s m d X ->
  nth_error (s_alpha s) m = Some [Fin a] -> nth_error X n = Some x ->
  (forall w, perms_valid (o w) s /\ o_z (o w) kk n = floats (xi w)) -> white A d v xi ->
  let cp := gibbs_point a (map f (map floats X)) d X in let dr := vsub x cp in let mu := fun i => coord i x - la * dt * coord i dr in
  exists Y : Om -> list R, (forall w, exists s' xr, step c (o w) s = Ok s' /\ nth_error (s_x s') m = Some xr /\ nth_error xr n = Some (floats (Y w))) /\
    (forall i, (i < d)%nat -> mean_is A (fun w => coord i (Y w)) (mu i)) /\
    (forall i j, (i < d)%nat -> (j < d)%nat -> mean_is A (fun w => (coord i (Y w) - mu i) * (coord j (Y w) - mu j))
       (if (i =? j)%nat then sg ^ 2 * dt * v * match k with NConst => 1 | NIso => sqnorm dr | NAniso => coord i dr ^ 2 end else 0)) /\
    mean_is A (fun w => sqnorm (vsub (Y w) cp))
      ((1 - la * dt) ^ 2 * sqnorm dr + sg ^ 2 * dt * v * match k with NConst => INR d | NIso => INR d * sqnorm dr | NAniso => sqnorm dr end).
Proof. exact step_moments. Qed.
Print Assumptions C81_moments.
Example C81_moments_example : let c := cbo_cfg sqf NIso (fun p => p) NoCorr 3 false false [] false in
  exists s, exec c s [] /\ finite_obj 2 sqf /\ parameters 1 (1 / 100) (51 / 10) s /\ 3%nat = s_N s /\ nth_error (s_active s) 0 = Some 0%nat /\ ensemble_at s 0 2 cX /\
    nth_error (s_alpha s) 0 = Some [Fin 1] /\ nth_error cX 1 = Some [2; 1] /\ (forall w, perms_valid (sorc w) s /\ o_z (sorc w) 0 1 = floats (sxi w)) /\ white sign_avg 2 1 sxi.
Proof. exact moment_case. Qed.

(** C81. That mean square distance is smaller than before exactly if d*sigma^2*v < 2*lamda - lamda^2*dt (isotropic),
    sigma^2*v < 2*lamda - lamda^2*dt (anisotropic noise, independent of the dimension). *)
Theorem C81_contraction : forall k la dt sg v d dr, length dr = d -> 0 < sqnorm dr -> 0 < dt ->
  let r := (1 - la * dt) ^ 2 * sqnorm dr + sg ^ 2 * dt * v * match k with NConst => INR d | NIso => INR d * sqnorm dr | NAniso => sqnorm dr end in
  k <> NConst -> (r < sqnorm dr <-> match k with NIso => INR d | _ => 1 end * sg ^ 2 * v < 2 * la - la ^ 2 * dt).
Proof. exact contraction_condition. Qed.
Print Assumptions C81_contraction.
Example C81_contraction_example : (1 - 1 * (1 / 10)) ^ 2 * sqnorm [1; 2] + (1 / 2) ^ 2 * (1 / 10) * 1 * (INR 2 * sqnorm [1; 2]) < sqnorm [1; 2] /\ INR 2 * (1 / 2) ^ 2 * 1 < 2 * 1 - 1 ^ 2 * (1 / 10).
Proof. unfold sqnorm, dot; cbn; lra. Qed.
(** C81. With the default parameters (lamda = 1, dt = 0.01, sigma = 5.1) it grows by at least 24 per cent in every step. *)
Theorem C81_defaults_refuted : forall k d dr, length dr = d -> (1 <= d)%nat -> k <> NConst ->
  124 / 100 * sqnorm dr <= (1 - 1 * (1 / 100)) ^ 2 * sqnorm dr + (51 / 10) ^ 2 * (1 / 100) * 1 * match k with NConst => INR d | NIso => INR d * sqnorm dr | NAniso => sqnorm dr end.
Proof. exact default_expansion. Qed.
Print Assumptions C81_defaults_refuted.
Example C81_defaults_example : length [1; 2] = 2%nat /\ NIso <> NConst /\ sqnorm [1; 2] = 5.
Proof. split; [reflexivity|]. split; [discriminate|]. unfold sqnorm, dot; cbn; ring. Qed.

(** C82. CBS: the constructor accepts exactly unbatched ensembles with at most three axes and a known noise. *)
Theorem C82_init : forall noise mode sigma batched ndim, (exists o, cbs_init noise mode sigma batched ndim = Ok o) <->
  In noise ["isotropic"; "anisotropic"; "covariance"; "sampling"; "constant"]%string /\ batched = false /\ (ndim <= 3)%nat.
Proof. exact cbs_init_ok. Qed.
Print Assumptions C82_init.
Example C82_init_example : (exists o, cbs_init "sampling" "sampling" (Fin 5) false 3 = Ok o) /\ cbs_init "sampling" "sampling" (Fin 5) true 3 = Err NotImplemented.
Proof. split; [eexists|]; reflexivity. Qed.
(** C82. One CBS step: mean x - lamda*dt*(x - c) and covariance 2*dt*(1+alpha)*C ('sampling') or 2*dt*C (every other mode),
    c and C the Gibbs mean and covariance; the argument sigma has no influence. *)
Theorem C82_moments : forall Om (A : average Om) f eigh noise mode sigma ndim o M N d m n X x alpha a la dt v (z : Om -> list nat -> fl R) (xi : Om -> list R),
  cbs_init noise mode sigma false ndim = Ok o ->
  ensemble N d X -> finite_obj d f -> shape x = [M; N; d] -> (m < M)%nat -> (n < N)%nat ->
  (forall j i, (j < N)%nat -> (i < d)%nat -> get x [m; j; i] = Fin (coord i (nth j X []))) ->
  shape alpha = [M; 1%nat] -> get alpha [m; 0%nat] = Fin a -> - 1 < a -> 0 <= dt ->
  (forall C, msym d C -> eigen d C (fst (eigh d C)) (snd (eigh d C))) ->
  (forall w q, (q < d)%nat -> z w [m; n; q] = Fin (coord q (xi w))) -> white A d v xi ->
  let E := map f (map floats X) in
  exists (y : Om -> nd (fl R)) (Y : Om -> list R),
    (forall w, cbs_step f eigh o (Fin la) (Fin dt) alpha (fun u => u) x (z w) = Ok (y w) /\ shape (y w) = [M; N; d] /\ length (Y w) = d) /\
    (forall w i, (i < d)%nat -> get (y w) [m; n; i] = Fin (coord i (Y w))) /\
    let mu := fun i => coord i (nth n X []) - la * dt * (coord i (nth n X []) - gibbs_mean a E X i) in
    (forall i, (i < d)%nat -> mean_is A (fun w => coord i (Y w)) (mu i)) /\
    (forall i k, (i < d)%nat -> (k < d)%nat -> mean_is A (fun w => (coord i (Y w) - mu i) * (coord k (Y w) - mu k))
       (v * (2 * dt) * (if String.eqb mode "sampling" then 1 + a else 1) * gibbs_cov a E X i k)).
Proof. exact cbs_moments. Qed.
Print Assumptions C82_moments.
Example C82_moments_example : ensemble 2 1 X1 /\ finite_obj 1 sqf /\ shape x1 = [1; 2; 1]%nat /\
  (forall j i, (j < 2)%nat -> (i < 1)%nat -> get x1 [0%nat; j; i] = Fin (coord i (nth j X1 []))) /\ shape alpha1 = [1; 1]%nat /\ get alpha1 [0; 0]%nat = Fin (1 / 2) /\
  (forall C, msym 1 C -> eigen 1 C (fst (eigh1 1 C)) (snd (eigh1 1 C))) /\ white fair 1 1 (fun b => [sgn b]).
Proof. exact cov_case. Qed.
(** C82. The documented noise factor is a different one: its square is smaller for every dt > 0. *)
Theorem C82_documented_factor_refuted : forall dt a, 0 < dt -> - 1 < a -> (1 + a) * (1 - exp (- dt)) ^ 2 < 2 * dt * (1 + a).
Proof. exact documented_factor. Qed.
Print Assumptions C82_documented_factor_refuted.
Example C82_documented_factor_example : 0 < 1 / 100 /\ - 1 < 5.
Proof. lra. Qed.
