(** * C97: exponential samplers and the torch backend *)
From Coq Require Import List Arith Bool Reals Lra.
From Verif Require Import Scalar Np RVec ConsSpec State Pdyn Exec MomentSpec PostProc Sched ParticleInit ParticleInitFacts Samplers SamplerSpec SamplerFacts ExSampler ExR.
Import ListNotations.
Open Scope R_scope.

(** C97. The draws of exponential_sampler are uncorrelated with mean 0, but their variance is 2: by C81 the noise of a step has twice the covariance it has with
    standard normal draws. The torch sampler draws the same. *)
Theorem C97_exponential : forall Om (A : average Om) d e s, exponentials A d e -> fair_signs A d e s -> white A d 2 (fun w => exponential_draw (e w) (s w)).
Proof. exact exponential_white. Qed.
Print Assumptions C97_exponential.
Theorem C97_exponential_torch : forall Om (A : average Om) d e (b : Om -> list nat), exponentials A d e -> (forall w, Forall (fun k => k = 0%nat \/ k = 1%nat) (b w)) ->
  fair_signs A d e (fun w => map (fun k => if (k =? 0)%nat then -1 else 1) (b w)) -> white A d 2 (fun w => exponential_torch_draw (e w) (b w)).
Proof. exact torch_white. Qed.
Print Assumptions C97_exponential_torch.
Example C97_exponential_applies : exponentials avg8 2 mag8 /\ fair_signs avg8 2 mag8 sgn8 /\ (forall w, Forall (fun k => k = 0%nat \/ k = 1%nat) (bit8 w)) /\
  forall w, map (fun k => if (k =? 0)%nat then -1 else 1) (bit8 w) = sgn8 w.
Proof. exact (conj mag8_ok (conj sgn8_ok bit8_ok)). Qed.

(** The torch post-processing makes every coordinate finite and at most max_thresh, after every step of every dynamic; it is the NumPy one without copy
    as long as max_thresh is at most the largest number of the dtype ... *)
Theorem C97_torch_bounded : forall (K : Type) (O : KOps K) (c : cfg K (list (fl R))) dmax t s log (o : orc (list (fl R))) s' m n i row v a,
  0 <= t <= dmax -> c_pp c = map (pp_torch dmax t) -> exec c s log -> perms_valid o s -> step c o s = Ok s' ->
  nth_error (s_x s') m = Some row -> nth_error row n = Some v -> nth_error v i = Some a -> exists x, a = Fin x /\ - t <= x <= t.
Proof. exact torch_bounded. Qed.
Print Assumptions C97_torch_bounded.
Example C97_torch_applies : exists s s', exec (rcfg 2 (map (pp_torch 1000 100)) []) s [] /\ perms_valid rorc s /\ step (rcfg 2 (map (pp_torch 1000 100)) []) rorc s = Ok s'.
Proof. apply rstep_ok. split; repeat constructor. Qed.
Theorem C97_torch_is_numpy : forall dmax t a, 0 <= t <= dmax -> t <= float_max -> pp_torch dmax t a = pp_default t false a.
Proof. exact torch_pp_numpy. Qed.
Print Assumptions C97_torch_is_numpy.
Example C97_torch_default : 0 <= 100000000 <= IZR ((2 ^ 24 - 1) * 2 ^ 104)%Z /\ 100000000 <= float_max.
Proof. unfold float_max. split; [split; [lra|]|]; apply IZR_le; discriminate. Qed.
(** ... which is needed: above it an infinity becomes the largest number, NaN the threshold. *)
Theorem C97_torch_large : forall dmax t, 0 <= dmax < t -> pp_torch dmax t PInf = Fin dmax /\ pp_torch dmax t NaN = Fin t.
Proof. exact torch_pp_large. Qed.
Print Assumptions C97_torch_large.

(** The effective-sample-size scheduler for torch computes the alpha of the NumPy one (default minimum), and one in [minimum + (maximum-minimum)/2^(max_it+1), maximum]
    for every minimum. *)
Theorem C97_torch_ess : forall V eta maximum max_it (s : st R V), length (s_energy s) = s_M s -> / 100000 <= maximum ->
  ess_update_torch eta maximum (/ 100000) max_it s = ess_update eta maximum max_it s.
Proof. exact torch_ess. Qed.
Print Assumptions C97_torch_ess.
Theorem C97_torch_ess_range : forall V eta maximum minimum max_it (s s' : st R V) i row, length (s_energy s) = s_M s -> minimum <= maximum ->
  ess_update_torch eta maximum minimum max_it s = Ok s' -> (i < s_M s)%nat -> nth_error (s_alpha s') i = Some row ->
  exists a, row = [Fin a] /\ minimum + (maximum - minimum) / 2 ^ (max_it + 1) <= a <= maximum.
Proof. exact torch_ess_range. Qed.
Print Assumptions C97_torch_ess_range.
