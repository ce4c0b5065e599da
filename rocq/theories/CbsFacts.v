(** * Facts about CBS *)
From Coq Require Import String List Arith Bool Reals Lia Lra.
From Verif Require Import Scalar Np NpFacts RVec RVecFacts Consensus ConsSpec Cbo CboSpec Nd MatSqrt MatSpec CovNoise CovCbo MomentSpec MomentFacts CovMoment Cbs.
Import ListNotations.
Open Scope R_scope.

Theorem cbs_init_ok : forall noise mode sigma batched ndim, (exists o, cbs_init noise mode sigma batched ndim = Ok o) <->
  In noise ["isotropic"; "anisotropic"; "covariance"; "sampling"; "constant"]%string /\ batched = false /\ (ndim <= 3)%nat.
Proof.
  intros noise mode sigma batched ndim. unfold cbs_init. assert (K : known_noise noise = true <-> In noise ["isotropic"; "anisotropic"; "covariance"; "sampling"; "constant"]%string).
  { unfold known_noise. rewrite existsb_exists. split. intros (x & Hx & E). apply String.eqb_eq in E. subst; auto. intros H. exists noise. split; auto. apply String.eqb_refl. }
  destruct (known_noise noise); cbn [negb]. 2:{ split. intros (o & H). discriminate. intros (H & _). apply K in H. discriminate. }
  destruct batched. split. intros (o & H). discriminate. intros (_ & H & _). discriminate.
  destruct (Nat.ltb_spec 3 ndim). split. intros (o & E). discriminate. intros (_ & _ & L). lia.
  split; [intros _|eauto]. split. apply K; auto. split; auto.
Qed.
Theorem cbs_moments : forall Om (A : average Om) f eigh noise mode sigma ndim o M N d m n X x alpha a la dt v (z : Om -> list nat -> fl R) (xi : Om -> list R),
  cbs_init noise mode sigma false ndim = Ok o ->
  ensemble N d X -> finite_obj d f -> shape x = [M; N; d] -> (m < M)%nat -> (n < N)%nat ->
  (forall j i, (j < N)%nat -> (i < d)%nat -> get x [m; j; i] = Fin (coord i (nth j X []))) ->
  shape alpha = [M; 1%nat] -> get alpha [m; 0%nat] = Fin a -> - 1 < a -> 0 <= dt ->
  (forall C, msym d C -> eigen d C (fst (eigh d C)) (snd (eigh d C))) ->
  (forall w q, (q < d)%nat -> z w [m; n; q] = Fin (coord q (xi w))) -> white A d v xi ->
  let E := map f (map floats X) in
  exists (y : Om -> nd (fl R)) (Y : Om -> list R),
    (forall w, cbs_step f eigh o (Fin la) (Fin dt) alpha (fun u => u) x (z w) = Ok (y w) /\ shape (y w) = [M; N; d] /\ length (Y w) = d) /\
    (forall w i, (i < d)%nat -> get (y w) [m; n; i] = Fin (coord i (Y w))) /\
    let mu := fun i => coord i (nth n X []) - la * dt * (coord i (nth n X []) - gibbs_mean a E X i) in
    (forall i, (i < d)%nat -> mean_is A (fun w => coord i (Y w)) (mu i)) /\
    (forall i k, (i < d)%nat -> (k < d)%nat -> mean_is A (fun w => (coord i (Y w) - mu i) * (coord k (Y w) - mu k))
       (v * (2 * dt) * (if String.eqb mode "sampling" then 1 + a else 1) * gibbs_cov a E X i k)).
Proof.
  intros Om A f eigh noise mode sigma ndim o M N d m n X x alpha a la dt v z xi HI HX Hf Hx Hm Hn Hxm Sa Ha Pa Hdt He Hz HW E.
  assert (Ho : o = (Fin 1, mode)). { revert HI. unfold cbs_init. destruct (negb _); [discriminate|]. destruct (3 <? ndim)%nat; [discriminate|]. intros H. injection H as <-. auto. }
  subst o. destruct (cov_moments A f eigh (is_sampling mode) M N d m n X x alpha a la dt 1 v HX Hf Hx Hm Hn Hxm Sa Ha Pa Hdt He z xi Hz HW) as (y & Y & H1 & H2 & H3 & H4).
  exists y, Y. split; [exact H1|]. split; [exact H2|]. split; [exact H3|]. intros i k Hi Hk. eapply mean_eq; [apply (H4 i k Hi Hk)|reflexivity|]. unfold gain, is_sampling. fold E. ring.
Qed.
(** the factor documented in noise.py:181: (1 - exp(-dt))^2 / lamda *)
Theorem documented_factor : forall dt a, 0 < dt -> - 1 < a -> (1 + a) * (1 - exp (- dt)) ^ 2 < 2 * dt * (1 + a).
Proof.
  intros dt a Hdt Ha. assert (H1 : 0 < exp (- dt)) by apply exp_pos. assert (H2 : 1 - dt < exp (- dt)) by (pose proof (exp_ineq1 (- dt)); lra).
  assert (H3 : exp (- dt) < 1) by (rewrite <- exp_0; apply exp_increasing; lra). set (u := 1 - exp (- dt)) in *.
  assert (0 < u < 1 /\ u < dt) as [Hu Hd] by (unfold u; lra). assert (u ^ 2 < 2 * dt). { cbn. rewrite Rmult_1_r. assert (u * u <= 1 * u) by (apply Rmult_le_compat_r; lra). lra. }
  rewrite (Rmult_comm (2 * dt)). apply Rmult_lt_compat_l; lra.
Qed.
