(** * C88: consensus based optimisation with a mirror map as post-processing *)
From Coq Require Import List Arith Reals Lra Lia.
From Verif Require Import Scalar Np State Pdyn Exec RVec ConsSpec PostProc Cbo CboSpec ExCbo MirrorMaps MirrorSpec MirrorDyn Prox ProxSpec ProxFacts ExProx.
Import ListNotations.
Open Scope nat_scope.

(** C88. The conjugate maps of the projections take every finite point into their sets. *)
Theorem C88_ball : forall r center d, (0 < r)%R -> length center = 1 \/ length center = d ->
  lands_in (ball r (along d center)) d (apply_prox (ProjectionBall r center)).
Proof. exact ball_lands. Qed.
Print Assumptions C88_ball.
Theorem C88_hyperplane : forall a b, sqnorm a <> 0%R -> lands_in (plane a b) (length a) (apply_prox (ProjectionHyperplane a b)).
Proof. exact plane_lands. Qed.
Print Assumptions C88_hyperplane.
Theorem C88_simplex : forall d, 1 <= d -> lands_in simplex d (apply_prox EntropySimplex).
Proof. exact simplex_lands. Qed.
Print Assumptions C88_simplex.

(** C88. One step takes every run, wherever its finite particles are, into the set ... *)
Theorem C88_one_step : forall f k mm b partial cat ks save C d s log o s' D,
  let c := prox_cfg f k mm b partial cat ks save in
  exec c s log -> perms_valid o s -> finite_draws d o -> finite_alpha s -> finite_parameters s ->
  finite_obj d f -> lands_in C d (apply_prox mm) -> step c o s = Ok s' -> all_in D s d -> all_in C s' d.
Proof. exact (fun f k mm b partial cat ks save C d => step_all f k (apply_prox mm) b partial cat ks save C d). Qed.
Print Assumptions C88_one_step.

(** ... and from particles in the set, all later particles and all evaluated points are in the set, and so is the best particle. *)
Theorem C88_stays : forall f k mm b partial cat ks save C d s0 s log,
  let c := prox_cfg f k mm b partial cat ks save in
  constructed c s0 -> finite_alpha s0 -> finite_parameters s0 -> finite_obj d f -> lands_in C d (apply_prox mm) ->
  all_in C s0 d -> history_from c d s0 s log -> exec c s log /\ all_in C s d /\ forall m v, In (m, v) log -> point_of C d v.
Proof. exact (fun f k mm b partial cat ks save C d => log_in f k (apply_prox mm) b partial cat ks save C d). Qed.
Print Assumptions C88_stays.
Theorem C88_best : forall f k mm b partial cat ks save C d s0 s log m be bp,
  let c := prox_cfg f k mm b partial cat ks save in
  constructed c s0 -> finite_alpha s0 -> finite_parameters s0 -> finite_obj d f -> lands_in C d (apply_prox mm) ->
  no_nan c -> all_in C s0 d -> history_from c d s0 s log -> nth_error (s_be s) m = Some be -> nth_error (s_bp s) m = Some bp ->
  be = PInf \/ point_of C d bp.
Proof. exact (fun f k mm b partial cat ks save C d => best_in f k (apply_prox mm) b partial cat ks save C d). Qed.
Print Assumptions C88_best.

(** a run in the ball of radius 5 *)
Example C88_inside_example : exists s0 s log, constructed (pc 5) s0 /\ finite_alpha s0 /\ finite_parameters s0 /\ finite_obj 2 pf /\
  lands_in (ball 5 (along 2 [0%R])) 2 (apply_prox (ProjectionBall 5 [0%R])) /\ no_nan (pc 5) /\ all_in (ball 5 (along 2 [0%R])) s0 2 /\
  history_from (pc 5) 2 s0 s log /\ In (1, floats [3%R; 4%R]) log.
Proof. exact ex_inside. Qed.

(** C88, refuted: initial particles are evaluated before they are post-processed. An initial particle outside the set which beats all points of the
    set stays the best particle for ever, so optimize returns an infeasible point. *)
Theorem C88_best_infeasible_refuted : forall f k mm b partial cat ks save (C : list R -> Prop) d s log m v0 be bp,
  let c := prox_cfg f k mm b partial cat ks save in
  exec c s log -> no_nan c -> In (m, v0) log ->
  (forall p, length p = d -> C p -> fltb (f v0) (f (floats p)) = true) ->
  nth_error (s_be s) m = Some be -> nth_error (s_bp s) m = Some bp -> ~ point_of C d bp.
Proof. exact (fun f k mm b partial cat ks save C d => best_outside f k (apply_prox mm) b partial cat ks save C d). Qed.
Print Assumptions C88_best_infeasible_refuted.
Example C88_outside_example : exists s log bp, exec (pc 1) s log /\ all_in (ball 1 (along 2 [0%R])) s 2 /\ In (1, floats [3%R; 4%R]) log /\
  nth_error (s_bp s) 1 = Some bp /\ ~ point_of (ball 1 (along 2 [0%R])) 2 bp.
Proof. exact ex_outside. Qed.

(** C88, refuted: the sphere. A run concentrated at the origin becomes NaN in the next step. *)
Theorem C88_sphere_origin_refuted : forall f k r b partial cat ks save s log o s' m d,
  let c := prox_cfg f k (ProjectionSphere r) b partial cat ks save in
  exec c s log -> perms_valid o s -> finite_draws d o -> finite_alpha s -> finite_parameters s -> k <> NConst ->
  (exists y, f (floats (repeat 0%R d)) = Fin y) -> step c o s = Ok s' ->
  all_at s m (repeat 0%R d) -> nth_error (s_x s') m = Some (repeat (repeat NaN d) (s_N s)).
Proof. exact sphere_prox_nan. Qed.
Print Assumptions C88_sphere_origin_refuted.
Example C88_origin_example : exists s s', exec oc s [] /\ perms_valid corc s /\ finite_draws 2 corc /\ finite_alpha s /\ finite_parameters s /\
  (exists y, sqf (floats (repeat 0%R 2)) = Fin y) /\ step oc corc s = Ok s' /\ all_at s 0 (repeat 0%R 2).
Proof. exact ex_origin. Qed.
