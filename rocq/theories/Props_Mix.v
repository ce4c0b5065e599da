(** * C98: the Gaussian mixture objective *)
From Coq Require Import List Arith Bool Reals Lra Lia.
From Verif Require Import Scalar Np Nd RVec MatSqrt MatSpec Objective Objectives Mixture MixSpec MixFacts ExMix.
Import ListNotations.
Open Scope R_scope.

(** C98. With equally many means and covariances Multimodal is the negative logarithm of the sum of the Gaussian densities. *)
Theorem C98_mixture : forall eigh means covs gs Ps Ds x, length means = length covs -> means <> [] -> mm_init eigh means covs = Ok gs ->
  length Ps = length means -> length Ds = length means ->
  (forall i m C P D, nth_error means i = Some m -> nth_error covs i = Some C -> nth_error Ps i = Some P -> nth_error Ds i = Some D ->
     eigh_ok eigh (length m) C /\ inverse_of (length m) C P /\ det_is eigh (length m) C D) ->
  mm_apply gs x = Fin (- ln (Rsum (map (fun q => density (fst (fst q)) (snd (fst q)) (snd q) x) (combine (combine means Ps) Ds)))).
Proof. exact mm_mixture. Qed.
Print Assumptions C98_mixture.
(** In the plane the product of the eigenvalues used there is the determinant. *)
Theorem C98_det : forall eigh C D, eigh_ok eigh 2 C -> det_is eigh 2 C D -> D = C 0%nat 0%nat * C 1%nat 1%nat - C 0%nat 1%nat * C 1%nat 0%nat.
Proof. exact det2. Qed.
Print Assumptions C98_det.
(** It can be constructed exactly if every covariance in use is positive definite. *)
Theorem C98_accepts : forall eigh means covs, (forall m C, In (m, C) (combine means covs) -> eigh_ok eigh (length m) C) ->
  ((exists gs, mm_init eigh means covs = Ok gs) <-> forall m C, In (m, C) (combine means covs) -> positive_definite (length m) C).
Proof. exact mm_accepts. Qed.
Print Assumptions C98_accepts.
Example C98_applies : (forall m C, In (m, C) (combine mm_means mm_covs) -> eigh_ok diag_eigh (length m) C) /\ (exists gs, mm_init diag_eigh mm_means mm_covs = Ok gs) /\
  (forall i m C P D, nth_error mm_means i = Some m -> nth_error mm_covs i = Some C -> nth_error [diag [1; 1]; diag [/ 2; 2]] i = Some P -> nth_error [1; 1] i = Some D ->
     eigh_ok diag_eigh (length m) C /\ inverse_of (length m) C P /\ det_is diag_eigh (length m) C D).
Proof. exact mm_ex. Qed.

(** Without arguments it is |x|^2/2 + log(2 pi) in the plane. *)
Theorem C98_defaults : forall eigh, eigh_ok eigh 2 mid -> exists gs, mm_new eigh None None = Ok gs /\ forall a b, mm_apply gs [a; b] = Fin ((a ^ 2 + b ^ 2) / 2 + ln (2 * PI)).
Proof. exact mm_defaults. Qed.
Print Assumptions C98_defaults.
Example C98_defaults_case : eigh_ok diag_eigh 2 mid.
Proof.
  repeat split; intros i j Hi Hj; destruct i as [|[|i]], j as [|[|j]]; try lia; unfold diag_eigh, mmul, mtr, msum, mid; cbn; ring.
Qed.

(** Every value lies between -log of the sum of the peaks and -log of each single density; with one component the mean is the only minimiser. *)
Theorem C98_bounds : forall gs x w, mm_apply gs x = Fin w -> - ln (Rsum (map (fun g => mvn_pdf g (mv_mean g)) gs)) <= w /\ forall g, In g gs -> w <= - ln (mvn_pdf g x).
Proof. exact mm_bounds. Qed.
Print Assumptions C98_bounds.
Theorem C98_single : forall eigh m C g x, eigh_ok eigh (length m) C -> mvn_freeze eigh m C = Ok g -> length x = length m -> x <> m ->
  exists a b, mm_apply [g] m = Fin a /\ mm_apply [g] x = Fin b /\ a < b.
Proof. exact mm_single. Qed.
Print Assumptions C98_single.

(** Surplus means or covariances are dropped without notice: several means with the default covariance make an objective with the first mean only. *)
Theorem C98_surplus_refuted : (forall eigh means covs extra, length means = length covs -> mm_init eigh (means ++ extra) covs = mm_init eigh means covs) /\
  (forall eigh means covs extra, length means = length covs -> mm_init eigh means (covs ++ extra) = mm_init eigh means covs) /\
  (forall eigh m means, mm_new eigh (Some (m :: means)) None = mm_new eigh (Some [m]) None) /\ forall eigh C covs, mm_new eigh None (Some (C :: covs)) = mm_new eigh None (Some [C]).
Proof. exact (conj mm_zip_means (conj mm_zip_covs (conj mm_default_covs mm_default_means))). Qed.
Print Assumptions C98_surplus_refuted.
(** As '3D' objective it is rejected for one run or one particle, as scipy drops axes of length one, and always without components. *)
Theorem C98_single_run_refuted : forall gs (x : nd R) M N d nfe, shape x = [M; N; d] ->
  check_f_dims (apply_kind K3D (mm_call gs)) M N true x nfe = match gs with [] => Err ValueError | _ => if (M =? 1)%nat || (N =? 1)%nat then Err ValueError else Ok (map (fun n => n + N)%nat nfe) end.
Proof. exact mm_check. Qed.
Print Assumptions C98_single_run_refuted.
Example C98_rejected : forall g, check_f_dims (apply_kind K3D (mm_call [g])) 1 3 true (mknd [1; 3; 2]%nat (fun _ => 0)) [0%nat] = Err ValueError.
Proof. intros. apply (mm_check [g] _ 1 3 2). reflexivity. Qed.

(** Centres of Bimodal and Unimodal: a list of two coordinates is used as given, the same centre as an array raises. *)
Theorem C98_array_centre_refuted : forall l def, (2 <= length l)%nat -> centre (CList l) def = Ok l /\ centre (CArray l) def = Err ValueError.
Proof. exact centre_two. Qed.
Print Assumptions C98_array_centre_refuted.
Example C98_centre : centre (CList [1; 2]) [0; 0] = Ok [1; 2] /\ centre (CArray [1; 2]) [0; 0] = Err ValueError /\ centre CNone [0; 0] = Ok [0; 0].
Proof. repeat split. Qed.
(** Bimodal is negative in its first centre and below ln 2 in its second, for all centres. *)
Theorem C98_bimodal : forall a0 a1 b0 b1, exists u v, Bimodal a0 a1 b0 b1 [a0; a1] = Ok u /\ Bimodal a0 a1 b0 b1 [b0; b1] = Ok v /\ - ln (3 / 2) <= u < 0 /\ v < ln 2.
Proof. exact bimodal_modes. Qed.
Print Assumptions C98_bimodal.
