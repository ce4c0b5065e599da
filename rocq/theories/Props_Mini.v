(** * C123: noise-free CBO with mini-batches *)
From Coq Require Import List Arith Bool Reals Lra Lia.
From Verif Require Import Scalar Np State Pdyn Exec RVec ConsSpec Cbo CboSpec ExCbo MsSpec LimSpec MiniFacts ExMini.
Import ListNotations.
Open Scope R_scope.

(** C123. If all particles are moved (batch_partial = False, or no batches), n noise-free steps multiply all pairwise
    differences by (1 - lamda*dt)^n, whatever the batches that give the consensus. *)
Theorem C123_contraction : forall f k pp b partial cat ks save s log m d n s' X la dt,
  let c := cbo_cfg f k pp NoCorr b partial cat ks save in
  exec c s log -> finite_obj d f -> finite_alpha s -> parameters la dt 0 s -> b = s_N s \/ partial = false -> ensemble_at s m d X ->
  (forall p, length p = d -> pp (floats p) = floats p) -> steps_active c m d s n s' ->
  exists Y, ensemble_at s' m d Y /\ diffs ((1 - la * dt) ^ n) X Y.
Proof. exact full_contraction. Qed.
Print Assumptions C123_contraction.

(** C123. ... and with 0 < lamda*dt <= 1 the particles of an endless run converge to one point of every box around them;
    the rate does not depend on the batch size. *)
Theorem C123_limit : forall f k pp b partial cat ks save,
  let c := cbo_cfg f k pp NoCorr b partial cat ks save in
  forall run log m d X la dt lo hi, exec c (run 0%nat) log -> finite_obj d f -> finite_alpha (run 0%nat) ->
  parameters la dt 0 (run 0%nat) -> b = s_N (run 0%nat) \/ partial = false -> ensemble_at (run 0%nat) m d X -> 0 < la * dt <= 1 ->
  (forall p, length p = d -> in_box d lo hi p -> pp (floats p) = floats p) -> (forall p, In p X -> in_box d lo hi p) -> endless c m d run ->
  exists p, length p = d /\ in_box d lo hi p /\ forall n, exists Y, ensemble_at (run n) m d Y /\
    forall y l, In y Y -> (l < d)%nat -> Rabs (coord l y - coord l p) <= (1 - la * dt) ^ n * (hi l - lo l).
Proof. exact full_limit. Qed.
Print Assumptions C123_limit.
Example C123_example : forall b partial, (1 <= b <= 3)%nat -> exists run, exec (nc b partial) (run 0%nat) [] /\ finite_obj 2 sqf /\ finite_alpha (run 0%nat) /\
  parameters 1 (1 / 2) 0 (run 0%nat) /\ s_N (run 0%nat) = 3%nat /\ ensemble_at (run 0%nat) 0 2 cX /\ (forall p, In p cX -> in_box 2 blo bhi p) /\
  endless (nc b partial) 0 2 run.
Proof. exact mini_case. Qed.

(** C123. REFUTED: they converge to one point also if only the batch is moved (batch_partial = True, the default). *)
Theorem C123_partial_refuted : ~ (forall f k pp b partial cat ks save,
  let c := cbo_cfg f k pp NoCorr b partial cat ks save in
  forall run log m d X la dt lo hi, exec c (run 0%nat) log -> finite_obj d f -> finite_alpha (run 0%nat) ->
  parameters la dt 0 (run 0%nat) -> ensemble_at (run 0%nat) m d X -> 0 < la * dt <= 1 ->
  (forall p, length p = d -> in_box d lo hi p -> pp (floats p) = floats p) -> (forall p, In p X -> in_box d lo hi p) -> endless c m d run ->
  exists p, length p = d /\ forall eps, 0 < eps -> exists n0, forall n, (n0 <= n)%nat -> exists Y, ensemble_at (run n) m d Y /\
    forall y l, In y Y -> (l < d)%nat -> Rabs (coord l y - coord l p) <= eps).
Proof. exact partial_limit_refuted. Qed.
Print Assumptions C123_partial_refuted.

(** C123. With batch_size = 1 and batch_partial = True every particle is its own consensus: with isotropic or anisotropic
    noise no particle ever moves, whatever draws, steps, termination checks, parameter changes and resets follow. *)
Theorem C123_batch_of_one : forall f k pp b partial cat ks save s log m d X s',
  let c := cbo_cfg f k pp NoCorr b partial cat ks save in
  exec c s log -> finite_alpha s -> finite_parameters s -> k <> NConst -> finite_obj d f -> b = 1%nat -> partial = true ->
  (forall p, In p X -> pp (floats p) = floats p) -> ensemble_at s m d X -> later c d s s' -> ensemble_at s' m d X.
Proof. exact one_forever. Qed.
Print Assumptions C123_batch_of_one.
