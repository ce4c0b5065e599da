(** * Properties: do the constrained variants approach their constraints? (C129) *)
From Coq Require Import String List Arith Bool Reals Lra.
From Verif Require Import Scalar Np State Pdyn Exec RVec ConsSpec Consensus MatSqrt Constraints ConSpec ExCon Cbo CboSpec MemSpec RegSched Variant VarSpec RegVar ProxSpec ConRunSpec ConRun ConReg ConRegAll ConRegSphere ConSphere ExCbo ExConRun ExConSphere.
Import ListNotations.
Open Scope R_scope.

(** C129. Without noise every step of DriftConstrainedCBO with a plane as constraint divides the largest violation of the constraint in a run by 1 + 2 dt/eps,
    for every objective, batch setting and every reachable state, as long as no exception is raised. *)
Theorem C129_drift_constrained_plane : forall f k pp b partial cat ks save solve a b0 g eps la dt d m n s log j s' u' B, let c := cbo_cfg f k pp NoCorr b partial cat ks save in
  solver solve -> length a = d -> vnorm a <> 0 -> applies_constraints d solve [CPlane a b0] g -> 0 < eps -> finite_obj d f -> (forall q, length q = d -> pp (floats q) = floats q) ->
  vexec (dc_inner (Some g) (Fin eps)) (fun _ => tt) c n (s, tt) log -> finite_alpha s -> parameters la dt 0 s -> 0 <= la * dt <= 1 ->
  run_in (fun p => Rabs (c_value (CPlane a b0) p) <= B) s m d -> travels (dc_inner (Some g) (Fin eps)) c d (s, tt) j (s', u') ->
  run_in (fun p => Rabs (c_value (CPlane a b0) p) <= B / (1 + 2 * (dt / eps)) ^ j) s' m d.
Proof. exact dc_plane. Qed.
Print Assumptions C129_drift_constrained_plane.
Example C129_drift_constrained_case : forall j, exists s s', let c := kc sqf NIso in let inner := dc_inner (Some zero_multi) (Fin (/ 100)) in
  solver solve1 /\ vnorm [1] <> 0 /\ applies_constraints 1 solve1 [CPlane [1] 0] zero_multi /\ finite_obj 1 sqf /\
  vexec inner (fun _ => tt) c 0 (s, tt) [] /\ finite_alpha s /\ parameters 1 (/ 100) 0 s /\ run_in (fun p => Rabs (c_value (CPlane [1] 0) p) <= 4) s 0 1 /\
  travels inner c 1 (s, tt) j (s', tt).
Proof. exact dc_case. Qed.

(** C129. A run of RegCombinationCBO in consensus (noise that vanishes there, any objective and any penalty) stays in consensus; each step multiplies the signed distance to the plane
    by 1 - 2 dt/eps. *)
Theorem C129_reg_combination_plane : forall f f0 reg pow lp k pp b partial cat ks save g a b0 eps la dt sg d m n s ob log j s' ob' p, let c := cbo_cfg f k pp NoCorr b partial cat ks save in
  penalised f0 reg pow lp c -> k <> NConst -> eps <> 0 -> finite_obj d f -> (forall q, length q = d -> pp (floats q) = floats q) ->
  length a = d -> vnorm a <> 0 -> applies_plane d a b0 g -> length p = d ->
  vexec (reg_inner (reg_call f0 reg pow) (Some g) (Fin eps)) (reg_attr lp) c n (s, ob) log -> finite_alpha s -> parameters la dt sg s ->
  run_in (fun q => q = p) s m d -> travels (reg_inner (reg_call f0 reg pow) (Some g) (Fin eps)) c d (s, ob) j (s', ob') ->
  exists p', run_in (fun q => q = p') s' m d /\ c_value (CPlane a b0) p' = (1 - 2 * (dt / eps)) ^ j * c_value (CPlane a b0) p.
Proof. exact reg_plane. Qed.
Print Assumptions C129_reg_combination_plane.
Example C129_reg_combination_case : forall h t j eps, eps <> 0 -> exists s s' ob', let c := kc kpen NAniso in let inner := reg_inner (reg_call sqf sqf (fun y => y)) (Some (lifted h)) (Fin eps) in
  penalised sqf sqf (fun y => y) (Fin 2) c /\ finite_obj 1 kpen /\
  vexec inner (reg_attr (Fin 2)) c 0 (s, reg_attr (Fin 2) s) [] /\ finite_alpha s /\ parameters 1 (/ 100) 5 s /\ run_in (fun q => q = [t]) s 0 1 /\
  travels inner c 1 (s, reg_attr (Fin 2) s) j (s', ob').
Proof. exact reg_case. Qed.
Example C129_reg_plane_solver : applies_plane 1 [1] 0 (lifted (fun x xt t => floats (solve_plane [1] 0 x xt t))) /\ vnorm [1] <> 0 /\ c_value (CPlane [1] 0) [3] = 3.
Proof. split; [apply plane_applies|]. split; [rewrite vnorm1; lra|apply zero_value]. Qed.

(** C129. Ensembles of RegCombinationCBO without noise: each step multiplies the bound of the violation by |1 - lamda dt - 2 dt/eps| + lamda dt, ... *)
Theorem C129_reg_combination_ensemble : forall f f0 reg pow lp k pp b partial cat ks save g a b0 eps la dt d m n s ob log j s' ob' B, let c := cbo_cfg f k pp NoCorr b partial cat ks save in
  penalised f0 reg pow lp c -> eps <> 0 -> finite_obj d f -> (forall q, length q = d -> pp (floats q) = floats q) ->
  length a = d -> vnorm a <> 0 -> applies_plane d a b0 g ->
  vexec (reg_inner (reg_call f0 reg pow) (Some g) (Fin eps)) (reg_attr lp) c n (s, ob) log -> finite_alpha s -> parameters la dt 0 s -> 0 <= la * dt ->
  run_in (fun p => Rabs (c_value (CPlane a b0) p) <= B) s m d -> travels (reg_inner (reg_call f0 reg pow) (Some g) (Fin eps)) c d (s, ob) j (s', ob') ->
  run_in (fun p => Rabs (c_value (CPlane a b0) p) <= B * (Rabs (1 - la * dt - 2 * (dt / eps)) + la * dt) ^ j) s' m d.
Proof. exact reg_plane_all. Qed.
Print Assumptions C129_reg_combination_ensemble.

(** ... which is 1 - 2 dt/eps if lamda dt + 2 dt/eps <= 1. *)
Theorem C129_reg_combination_stable : forall f f0 reg pow lp k pp b partial cat ks save g a b0 eps la dt d m n s ob log j s' ob' B, let c := cbo_cfg f k pp NoCorr b partial cat ks save in
  penalised f0 reg pow lp c -> eps <> 0 -> finite_obj d f -> (forall q, length q = d -> pp (floats q) = floats q) ->
  length a = d -> vnorm a <> 0 -> applies_plane d a b0 g ->
  vexec (reg_inner (reg_call f0 reg pow) (Some g) (Fin eps)) (reg_attr lp) c n (s, ob) log -> finite_alpha s -> parameters la dt 0 s -> 0 <= la * dt -> la * dt + 2 * (dt / eps) <= 1 ->
  run_in (fun p => Rabs (c_value (CPlane a b0) p) <= B) s m d -> travels (reg_inner (reg_call f0 reg pow) (Some g) (Fin eps)) c d (s, ob) j (s', ob') ->
  run_in (fun p => Rabs (c_value (CPlane a b0) p) <= B * (1 - 2 * (dt / eps)) ^ j) s' m d.
Proof. exact reg_plane_stable. Qed.
Print Assumptions C129_reg_combination_stable.
Example C129_reg_ensemble_case : forall j, exists s s' ob', let c := kc kpen NAniso in let inner := reg_inner (reg_call sqf sqf (fun y => y)) (Some (lifted (fun x xt t => floats (solve_plane [1] 0 x xt t)))) (Fin 1) in
  penalised sqf sqf (fun y => y) (Fin 2) c /\ finite_obj 1 kpen /\ vexec inner (reg_attr (Fin 2)) c 0 (s, reg_attr (Fin 2) s) [] /\ finite_alpha s /\ parameters 1 (/ 100) 0 s /\
  1 * / 100 + 2 * (/ 100 / 1) <= 1 /\ run_in (fun p => Rabs (c_value (CPlane [1] 0) p) <= 4) s 0 1 /\ travels inner c 1 (s, reg_attr (Fin 2) s) j (s', ob').
Proof. exact reg_all_case. Qed.

(** C129. Therefore RegCombinationCBO does not approach the constraint: for dt = eps, which are the default values, the violation stays what it was ... *)
Theorem C129_reg_approaches_plane_refuted : forall f f0 reg pow lp k pp b partial cat ks save g a b0 eps la sg d m n s ob log j s' ob' p, let c := cbo_cfg f k pp NoCorr b partial cat ks save in
  penalised f0 reg pow lp c -> k <> NConst -> eps <> 0 -> finite_obj d f -> (forall q, length q = d -> pp (floats q) = floats q) ->
  length a = d -> vnorm a <> 0 -> applies_plane d a b0 g -> length p = d ->
  vexec (reg_inner (reg_call f0 reg pow) (Some g) (Fin eps)) (reg_attr lp) c n (s, ob) log -> finite_alpha s -> parameters la eps sg s ->
  run_in (fun q => q = p) s m d -> travels (reg_inner (reg_call f0 reg pow) (Some g) (Fin eps)) c d (s, ob) j (s', ob') ->
  exists p', run_in (fun q => q = p') s' m d /\ Rabs (c_value (CPlane a b0) p') = Rabs (c_value (CPlane a b0) p).
Proof. exact reg_plane_same. Qed.
Print Assumptions C129_reg_approaches_plane_refuted.

(** ... and for dt > eps it exceeds every bound. *)
Theorem C129_reg_bounded_violation_refuted : forall dt eps v B, 0 < eps < dt -> v <> 0 -> exists J, forall f f0 reg pow lp k pp b partial cat ks save g a b0 la sg d m n s ob log j s' ob' p,
  let c := cbo_cfg f k pp NoCorr b partial cat ks save in
  penalised f0 reg pow lp c -> k <> NConst -> finite_obj d f -> (forall q, length q = d -> pp (floats q) = floats q) ->
  length a = d -> vnorm a <> 0 -> applies_plane d a b0 g -> length p = d -> c_value (CPlane a b0) p = v ->
  vexec (reg_inner (reg_call f0 reg pow) (Some g) (Fin eps)) (reg_attr lp) c n (s, ob) log -> finite_alpha s -> parameters la dt sg s ->
  run_in (fun q => q = p) s m d -> travels (reg_inner (reg_call f0 reg pow) (Some g) (Fin eps)) c d (s, ob) j (s', ob') -> (J <= j)%nat ->
  exists p', run_in (fun q => q = p') s' m d /\ B < Rabs (c_value (CPlane a b0) p').
Proof. exact reg_plane_grows. Qed.
Print Assumptions C129_reg_bounded_violation_refuted.
Example C129_bounded_case : 0 < / 100 < / 10 /\ c_value (CPlane [1] 0) [3] <> 0.
Proof. rewrite zero_value. lra. Qed.

(** C129. If 4 (dt/eps) r^2 < 1, a run of RegCombinationCBO in consensus near the sphere approaches it geometrically ... *)
Theorem C129_reg_combination_sphere : forall r dt eps, 0 < r -> 0 < dt -> 0 < eps -> 4 * (dt / eps) * (r * r) < 1 -> exists q eta, 0 <= q < 1 /\ 0 < eta /\
  forall f f0 reg pow lp k pp b partial cat ks save g la sg d m n s ob log j s' ob' p, let c := cbo_cfg f k pp NoCorr b partial cat ks save in
  penalised f0 reg pow lp c -> k <> NConst -> finite_obj d f -> (forall q, length q = d -> pp (floats q) = floats q) ->
  applies_sphere d r g -> length p = d -> Rabs (c_value (CSphere r) p) < eta ->
  vexec (reg_inner (reg_call f0 reg pow) (Some g) (Fin eps)) (reg_attr lp) c n (s, ob) log -> finite_alpha s -> parameters la dt sg s ->
  run_in (fun q => q = p) s m d -> travels (reg_inner (reg_call f0 reg pow) (Some g) (Fin eps)) c d (s, ob) j (s', ob') ->
  exists p', run_in (fun q => q = p') s' m d /\ Rabs (c_value (CSphere r) p') <= q ^ j * Rabs (c_value (CSphere r) p).
Proof. exact reg_sphere_near. Qed.
Print Assumptions C129_reg_combination_sphere.
Example C129_reg_combination_sphere_case : 4 * (/ 100 / 1) * (1 * 1) < 1 /\ 1 <> 0.
Proof. lra. Qed.

(** ... but not for larger steps: if 4 (dt/eps) r^2 > 1, as for the default values and the unit sphere, a run in consensus near the sphere is pushed away from it. *)
Theorem C129_reg_approaches_sphere_refuted : forall r dt eps, 0 < dt -> 0 < eps -> 1 < 4 * (dt / eps) * (r * r) -> exists eta, 0 < eta /\
  forall f f0 reg pow lp k pp b partial cat ks save g la sg d m n s ob log s' ob' p, let c := cbo_cfg f k pp NoCorr b partial cat ks save in
  penalised f0 reg pow lp c -> k <> NConst -> finite_obj d f -> (forall q, length q = d -> pp (floats q) = floats q) ->
  applies_sphere d r g -> length p = d -> 0 < Rabs (c_value (CSphere r) p) < eta ->
  vexec (reg_inner (reg_call f0 reg pow) (Some g) (Fin eps)) (reg_attr lp) c n (s, ob) log -> finite_alpha s -> parameters la dt sg s ->
  run_in (fun q => q = p) s m d -> travels (reg_inner (reg_call f0 reg pow) (Some g) (Fin eps)) c d (s, ob) 1 (s', ob') ->
  exists p', run_in (fun q => q = p') s' m d /\ Rabs (c_value (CSphere r) p) < Rabs (c_value (CSphere r) p').
Proof. exact reg_sphere. Qed.
Print Assumptions C129_reg_approaches_sphere_refuted.
Example C129_sphere_case : 1 < 4 * (/ 100 / / 100) * (1 * 1) /\ applies_sphere 1 1 (lifted (fun x xt t => solve_sphere 1 x xt t)) /\ forall eta, 0 < eta -> exists t, 0 < Rabs (c_value (CSphere 1) [t]) < eta.
Proof. split; [unfold Rdiv; rewrite Rinv_r by lra; lra|]. split; [apply sphere_applies|apply near_sphere]. Qed.

(** C129. A run of DriftConstrainedCBO in consensus outside of (or on) a sphere approaches it geometrically from outside, for all parameters and noise that vanishes at consensus. *)
Theorem C129_drift_constrained_sphere : forall f k pp b partial cat ks save solve r g eps la dt sg d m n s log j s' u' p, let c := cbo_cfg f k pp NoCorr b partial cat ks save in
  solver solve -> k <> NConst -> 0 < r -> applies_constraints d solve [CSphere r] g -> 0 < eps -> finite_obj d f -> (forall q, length q = d -> pp (floats q) = floats q) ->
  vexec (dc_inner (Some g) (Fin eps)) (fun _ => tt) c n (s, tt) log -> finite_alpha s -> parameters la dt sg s ->
  length p = d -> r <= vnorm p -> run_in (fun q => q = p) s m d -> travels (dc_inner (Some g) (Fin eps)) c d (s, tt) j (s', u') ->
  exists p', run_in (fun q => q = p') s' m d /\ 0 <= vnorm p' - r <= ((1 + 8 * (dt / eps) * (r * r)) / (1 + 12 * (dt / eps) * (r * r))) ^ j * (vnorm p - r).
Proof. exact dc_sphere. Qed.
Print Assumptions C129_drift_constrained_sphere.

(** C129. Inside this is false: if 2 (dt/eps) r^2 > 1 (default values, unit sphere) a run in consensus near the centre gets farther away from the sphere. *)
Theorem C129_drift_constrained_centre_refuted : forall f k pp b partial cat ks save solve r g eps la dt sg d m n s log j s' u' p, let c := cbo_cfg f k pp NoCorr b partial cat ks save in
  solver solve -> k <> NConst -> applies_constraints d solve [CSphere r] g -> 0 < eps -> 0 < dt -> 1 < 2 * (dt / eps) * (r * r) -> finite_obj d f -> (forall q, length q = d -> pp (floats q) = floats q) ->
  vexec (dc_inner (Some g) (Fin eps)) (fun _ => tt) c n (s, tt) log -> finite_alpha s -> parameters la dt sg s ->
  length p = d -> 0 < sqnorm p < (2 * (dt / eps) * (r * r) - 1) / (10 * (dt / eps)) -> run_in (fun q => q = p) s m d -> travels (dc_inner (Some g) (Fin eps)) c d (s, tt) j (s', u') -> (1 <= j)%nat ->
  exists p', run_in (fun q => q = p') s' m d /\ Rabs (c_value (CSphere r) p) < Rabs (c_value (CSphere r) p').
Proof. exact dc_sphere_centre. Qed.
Print Assumptions C129_drift_constrained_centre_refuted.
Example C129_drift_constrained_sphere_case : forall r t, 1 + 8 * sqnorm [t] + 4 * (sqnorm [t] - r * r) <> 0 -> exists s s', let c := kc sqf NAniso in let inner := dc_inner (Some (sphere_multi r)) (Fin (/ 100)) in
  finite_obj 1 sqf /\ vexec inner (fun _ => tt) c 0 (s, tt) [] /\ finite_alpha s /\ parameters 1 (/ 100) 5 s /\ run_in (fun q => q = [t]) s 0 1 /\ travels inner c 1 (s, tt) 1 (s', tt).
Proof. exact dcs_travels. Qed.
Example C129_drift_constrained_sphere_points : solver solve1 /\ (forall r, applies_constraints 1 solve1 [CSphere r] (sphere_multi r)) /\
  (1 <= vnorm [2] /\ 1 + 8 * sqnorm [2] + 4 * (sqnorm [2] - 1 * 1) <> 0) /\
  (0 < sqnorm [/ 4] < (2 * (/ 100 / / 100) * (1 * 1) - 1) / (10 * (/ 100 / / 100)) /\ 1 + 8 * sqnorm [/ 4] + 4 * (sqnorm [/ 4] - 1 * 1) <> 0).
Proof. exact (conj solve1_ok (conj sphere_multi_applies (conj out_case in_case))). Qed.
