(** * Properties: particles at rest and clusters in PolarCBO (C108) *)
From Coq Require Import String List Arith Bool Lia Reals Lra.
From Verif Require Import Scalar Np NpFacts State Pdyn PdynStep PdynOk Exec RunFacts RVec ConsSpec Consensus ConsFacts PostProc Cbo CboSpec
  Polar PolarSpec PolarRun PolarRunSpec PolarRestSpec PolarRest PolarCluster ExCbo ExPolarRun ExPolarRest.
Import ListNotations.
Open Scope R_scope.

(** C108. Of the four kernels only the constant one is ever 0: at distances greater than kappa (not at kappa itself). *)
Theorem C108_who_sees_whom : forall kn kappa x y, 0 < kappa -> (kcall kn (Fin kappa) x y = Fin 0 <-> kn = KConst /\ kappa < dist x y).
Proof. exact unseen. Qed.
Print Assumptions C108_who_sees_whom.

(** C108. Ensembles whose particles either coincide or do not see each other never change under multiplicative noise, whatever steps, termination
    checks, changes of the parameters and resets follow. *)
Theorem C108_apart_is_absorbing : forall kn kappa md (f : vec -> fl R) k (pp : vec -> vec) b partial cat ks save, kappa_ok kappa ->
  let c := polar_cfg kn kappa md f k pp b partial cat ks save in
  forall s log s' m d X, exec c s log -> usable md s -> batches_fit b partial s ->
  k <> NConst -> (forall x, In x X -> exists y, f (floats x) = Fin y) -> (forall x, In x X -> pp (floats x) = floats x) -> apart kn kappa X ->
  ensemble_at s m d X -> later_if (usable md) c d s s' -> ensemble_at s' m d X.
Proof. exact polar_absorbing. Qed.
Print Assumptions C108_apart_is_absorbing.

(** C108. These are the only ensembles at rest: a noise-free step with lamda*dt <> 0 leaves all particles in place if and only if particles that see
    each other coincide. *)
Theorem C108_rest : forall kn kappa md (f : vec -> fl R) k b partial cat ks save s log o s' m d X la dt, kappa_ok kappa -> finite_obj d f ->
  let c := polar_cfg kn kappa md f k (fun v => v) b partial cat ks save in
  exec c s log -> perms_valid o s -> finite_draws d o -> usable md s -> parameters la dt 0 s -> la * dt <> 0 ->
  b = s_N s -> In m (s_active s) -> step c o s = Ok s' -> ensemble_at s m d X ->
  (nth_error (s_x s') m = nth_error (s_x s) m <-> apart kn kappa X).
Proof. exact polar_rest. Qed.
Print Assumptions C108_rest.

(** C108. Without noise and with 0 <= lamda*dt <= 1 particles stay in their region if the regions are convex and do not see each other, also with
    mini-batches (one region: the convex hull is never left). *)
Theorem C108_regions : forall kn kappa md (f : vec -> fl R) k (pp : vec -> vec) b partial cat ks save d C, kappa_ok kappa -> clusters kn kappa d C ->
  (forall j p, length p = d -> C j p -> exists y, f (floats p) = Fin y) -> (forall j p, length p = d -> C j p -> pp (floats p) = floats p) ->
  let c := polar_cfg kn kappa md f k pp b partial cat ks save in
  forall s log s' m lab X, exec c s log -> usable md s -> noise_free s ->
  batches_fit b partial s -> ensemble_at s m d X -> clustered C lab X -> later_if (fun s => usable md s /\ noise_free s) c d s s' ->
  exists Y, ensemble_at s' m d Y /\ clustered C lab Y.
Proof. exact regions. Qed.
Print Assumptions C108_regions.

(** C108. The particles of one region move as if the others did not exist: two noise-free dynamics, with different particles elsewhere (or none),
    different objectives elsewhere, noise models and draws, have the same particles with label j for ever. *)
Theorem C108_clusters_are_independent : forall kn kappa md d C j lab1 lab2 (f1 f2 : vec -> fl R) k1 k2 (pp1 pp2 : vec -> vec) b1 b2 p1 p2 t1 t2 ks1 ks2 v1 v2 m1 m2 s1 s2 l1 l2 X1 X2 u1 u2,
  kappa_ok kappa -> clusters kn kappa d C ->
  (forall i p, length p = d -> C i p -> (exists y, f1 (floats p) = Fin y) /\ (exists y, f2 (floats p) = Fin y)) ->
  (forall p, length p = d -> C j p -> f1 (floats p) = f2 (floats p)) ->
  (forall i p, length p = d -> C i p -> pp1 (floats p) = floats p /\ pp2 (floats p) = floats p) ->
  let c1 := polar_cfg kn kappa md f1 k1 pp1 b1 p1 t1 ks1 v1 in let c2 := polar_cfg kn kappa md f2 k2 pp2 b2 p2 t2 ks2 v2 in
  let P := fun s => usable md s /\ noise_free s in
  exec c1 s1 l1 -> exec c2 s2 l2 -> P s1 -> P s2 -> same_parameters m1 m2 s1 s2 -> b1 = s_N s1 -> b2 = s_N s2 ->
  ensemble_at s1 m1 d X1 -> ensemble_at s2 m2 d X2 -> clustered C lab1 X1 -> clustered C lab2 X2 -> members j lab1 X1 = members j lab2 X2 ->
  lockstep P d c1 c2 m1 m2 s1 s2 u1 u2 ->
  exists Y1 Y2, ensemble_at u1 m1 d Y1 /\ ensemble_at u2 m2 d Y2 /\ clustered C lab1 Y1 /\ clustered C lab2 Y2 /\ members j lab1 Y1 = members j lab2 Y2.
Proof. exact cluster_alone. Qed.
Print Assumptions C108_clusters_are_independent.

(** three particles at distances >= 1, constant kernel with kappa = 1/2, batches of two *)
Example C108_apart_case : exists s s1, let c := polar_cfg KConst (Fin (/ 2)) MAlpha sqf NAniso (fun v => v) 2 true false [] true in
  exec c s [] /\ usable MAlpha s /\ batches_fit 2 true s /\ ensemble_at s 0 2 cX /\ apart KConst (Fin (/ 2)) cX /\
  step c corc s = Ok s1 /\ later_if (usable MAlpha) c 2 s s1.
Proof. exact ex_polar_absorb. Qed.
Example C108_rest_case : exists s s1, let c := polar_cfg KConst (Fin (/ 2)) MAlpha sqf NAniso (fun v => v) 3 true false [] true in
  exec c s [] /\ perms_valid corc s /\ finite_draws 2 corc /\ usable MAlpha s /\ parameters 1 (/ 2) 0 s /\ 3%nat = s_N s /\ In 0%nat (s_active s) /\
  step c corc s = Ok s1 /\ ensemble_at s 0 2 cX.
Proof. exact ex_polar_rest. Qed.
(** kappa = 3/2: two particles that see each other and one that sees nobody; the two alone in a second dynamic *)
Example C108_cluster_case : exists s1 s2 u1 u2,
  let c1 := polar_cfg KConst (Fin (3 / 2)) MAlpha sqf NAniso (fun v => v) 3 true false [] true in
  let c2 := polar_cfg KConst (Fin (3 / 2)) MAlpha sqf NIso (fun v => v) 2 false true [] false in
  let P := fun s => usable MAlpha s /\ noise_free s in
  clusters KConst (Fin (3 / 2)) 2 eregion /\ exec c1 s1 [] /\ exec c2 s2 [] /\ P s1 /\ P s2 /\ same_parameters 0 0 s1 s2 /\ 3%nat = s_N s1 /\ 2%nat = s_N s2 /\
  ensemble_at s1 0 2 cX /\ ensemble_at s2 0 2 pairX /\ clustered eregion [0; 1; 0]%nat cX /\ clustered eregion [0; 0]%nat pairX /\
  members 0 [0; 1; 0]%nat cX = members 0 [0; 0]%nat pairX /\ later_if P c1 2 s1 u1 /\ lockstep P 2 c1 c2 0 0 s1 s2 u1 u2.
Proof. exact ex_polar_cluster. Qed.
