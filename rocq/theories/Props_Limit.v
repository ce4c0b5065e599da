(** * C90: noise-free CBO converges *)
From Coq Require Import List Arith Bool Reals Lra Lia.
From Verif Require Import Scalar Np State Pdyn Exec RVec ConsSpec Cbo CboSpec ExCbo MsSpec LimSpec LimFacts ExLim.
Import ListNotations.
Open Scope R_scope.

(** C90. Unbatched noise-free CBO with 0 < lamda*dt <= 1.  In every endless run, with any changes of alpha between the steps, all particles converge to one point.
    It lies in every box around the initial ensemble, and after n steps each coordinate of each particle is within (1-lamda*dt)^n times the width of the box. *)
Theorem C90_limit : forall f k pp b partial cat ks save,
  let c := cbo_cfg f k pp NoCorr b partial cat ks save in
  forall run log m d X la dt lo hi, exec c (run 0%nat) log -> finite_obj d f -> finite_alpha (run 0%nat) ->
  parameters la dt 0 (run 0%nat) -> b = s_N (run 0%nat) -> ensemble_at (run 0%nat) m d X -> 0 < la * dt <= 1 ->
  (forall p, length p = d -> in_box d lo hi p -> pp (floats p) = floats p) -> (forall p, In p X -> in_box d lo hi p) -> endless c m d run ->
  exists p, length p = d /\ in_box d lo hi p /\ forall n, exists Y, ensemble_at (run n) m d Y /\
    forall y l, In y Y -> (l < d)%nat -> Rabs (coord l y - coord l p) <= (1 - la * dt) ^ n * (hi l - lo l).
Proof. exact noise_free_limit. Qed.
Print Assumptions C90_limit.
Example C90_example : exists run, exec lc (run 0%nat) [] /\ finite_obj 2 sqf /\ finite_alpha (run 0%nat) /\ parameters 1 (1 / 2) 0 (run 0%nat) /\ 3%nat = s_N (run 0%nat) /\
  ensemble_at (run 0%nat) 0 2 cX /\ (forall p, In p cX -> in_box 2 (fun i => match i with 0%nat => -1 | _ => 1 end) (fun i => match i with 0%nat => 2 | _ => 1 end) p) /\ endless lc 0 2 run.
Proof. exact lim_case. Qed.
