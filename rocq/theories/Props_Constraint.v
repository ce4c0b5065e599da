(** * C54, C55: constraints and their implicit steps *)
From Coq Require Import List Arith Reals Lra Lia.
From Verif Require Import Scalar RVec ConsSpec MatSqrt MatSpec Cbo Constraints ConSpec ConFacts ExCon ConMulti ConMultiSpec ConMultiFacts.
Import ListNotations.
Open Scope R_scope.

(** C54. The constraint is the documented function and [grad] its gradient, at every point. *)
Theorem C54_value : forall k x, fits k (length x) -> con k x = c_value k x.
Proof. exact con_value. Qed.
Print Assumptions C54_value.

Theorem C54_grad : forall k x, fits k (length x) -> symmetric k (length x) -> gradient_at (c_value k) x (con_grad k x).
Proof. exact value_grad. Qed.
Print Assumptions C54_grad.

(** [hessian] is the Jacobian of [grad]. *)
Theorem C54_hessian : forall k x, fits k (length x) -> symmetric k (length x) -> jacobian_at (con_grad k) x (con_hess k x).
Proof. exact con_hess_ok. Qed.
Print Assumptions C54_hessian.

(** [grad_squared] is the gradient of the square, [hessian_squared] the Jacobian of that. *)
Theorem C54_grad_squared : forall k x, fits k (length x) -> symmetric k (length x) ->
  gradient_at (fun p => c_value k p ^ 2) x (con_grad_sq k x).
Proof. exact value_grad_sq. Qed.
Print Assumptions C54_grad_squared.

Theorem C54_hessian_squared : forall k x, fits k (length x) -> symmetric k (length x) -> jacobian_at (con_grad_sq k) x (con_hess_sq k x).
Proof. exact con_hess_sq_ok. Qed.
Print Assumptions C54_hessian_squared.

(** any number of constraints (MultiConstraint) *)
Theorem C54_multi_grad : forall ks x, (forall k, In k ks -> fits k (length x) /\ symmetric k (length x)) ->
  gradient_at (fun p => Rsum (map (fun k => c_value k p ^ 2) ks)) x (multi_grad_sq ks x).
Proof. exact value_multi. Qed.
Print Assumptions C54_multi_grad.

Theorem C54_multi_hessian : forall ks x, (forall k, In k ks -> fits k (length x) /\ symmetric k (length x)) ->
  jacobian_at (multi_grad_sq ks) x (multi_hess_sq ks x).
Proof. exact multi_hess_ok. Qed.
Print Assumptions C54_multi_hessian.

(** C54. For every non-symmetric matrix the gradient of the quadric is wrong somewhere. *)
Theorem C54_nonsymmetric_refuted : forall d A b c, length b = d -> (exists i j, (i < d)%nat /\ (j < d)%nat /\ A i j <> A j i) ->
  exists x, length x = d /\ ~ gradient_at (c_value (CQuadric A b c)) x (con_grad (CQuadric A b c) x).
Proof. exact value_quadric_wrong. Qed.
Print Assumptions C54_nonsymmetric_refuted.

Example C54_case : fits (CPlane [3; 4] 1) (length [1; 2]) /\ fits (CQuadric (fun i j => if Nat.eqb i j then 2 else 1) [1; 1] 3) (length [1; 2]) /\
  symmetric (CQuadric (fun i j => if Nat.eqb i j then 2 else 1) [1; 1] 3) (length [1; 2]) /\
  (exists i j, (i < 2)%nat /\ (j < 2)%nat /\ shear i j <> shear j i) /\
  con_grad (CSphere 1) [1; 2] = [2; 4].
Proof. exact ex_con. Qed.

(** C55. Sphere: the unique solution of the implicit equation, if the divisor is not zero. *)
Theorem C55_sphere : forall r x xt factor, length xt = length x -> 1 + 4 * factor * c_value (CSphere r) x <> 0 ->
  exists y, solve_sphere r x xt factor = floats y /\ implicit_step (c_value (CSphere r)) factor x xt y /\
    forall z, implicit_step (c_value (CSphere r)) factor x xt z -> z = y.
Proof. exact sphere_step. Qed.
Print Assumptions C55_sphere.

Theorem C55_sphere_divisor : forall r x factor, factor <> 0 ->
  (1 + 4 * factor * c_value (CSphere r) x = 0 <-> sqnorm x = r * r - 1 / (4 * factor)).
Proof. exact sphere_step_regular. Qed.
Print Assumptions C55_sphere_divisor.

(** there is such a point iff 4 factor r^2 >= 1 *)
Theorem C55_sphere_singular_points : forall r d factor, 0 < factor -> (1 <= d)%nat ->
  ((exists x, length x = d /\ sqnorm x = r * r - 1 / (4 * factor)) <-> 1 <= 4 * factor * (r * r)).
Proof. exact sphere_step_exists. Qed.
Print Assumptions C55_sphere_singular_points.

(** at such a point no returned coordinate is a number *)
Theorem C55_sphere_singular : forall r x xt factor, factor <> 0 -> sqnorm x = r * r - 1 / (4 * factor) ->
  forall v, In v (solve_sphere r x xt factor) -> ~ exists a, v = Fin a.
Proof. exact sphere_step_singular. Qed.
Print Assumptions C55_sphere_singular.

Theorem C55_plane : forall a b x xt factor, length a = length x -> vnorm a <> 0 -> length xt = length x ->
  implicit_step (c_value (CPlane a b)) factor x xt (solve_plane a b x xt factor) /\
  forall z, implicit_step (c_value (CPlane a b)) factor x xt z -> z = solve_plane a b x xt factor.
Proof. exact plane_step. Qed.
Print Assumptions C55_plane.

Theorem C55_quadric : forall solve A b c x xt factor y, solver solve -> msym (length x) A -> length b = length x -> length xt = length x ->
  solve_quadric solve A b c x xt factor = Some y -> implicit_step (c_value (CQuadric A b c)) factor x xt y.
Proof. exact quadric_step. Qed.
Print Assumptions C55_quadric.

(** without symmetry: iff A y = A^T y *)
Theorem C55_quadric_iff : forall solve A b c x xt factor y, solver solve -> length b = length x -> length xt = length x ->
  factor <> 0 -> c_value (CQuadric A b c) x <> 0 -> solve_quadric solve A b c x xt factor = Some y ->
  (implicit_step (c_value (CQuadric A b c)) factor x xt y <->
   forall i, (i < length x)%nat -> msum (length x) (fun j => A i j * coord j y) = msum (length x) (fun j => A j i * coord j y)).
Proof. exact quadric_step_iff. Qed.
Print Assumptions C55_quadric_iff.

Theorem C55_quadric_nonsymmetric_refuted : exists y, solve_quadric solve2 shear [0; 0] 0 [1; 1] [1; 1] 1 = Some y /\
  ~ implicit_step (c_value (CQuadric shear [0; 0] 0)) 1 [1; 1] [1; 1] y.
Proof. exact ex_shear. Qed.
Print Assumptions C55_quadric_nonsymmetric_refuted.

(** C55. A point that satisfies the constraint is not corrected. *)
Theorem C55_feasible : forall k factor x xt y, c_value k x = 0 -> implicit_step (c_value k) factor x xt y -> y = xt.
Proof. exact feasible_step. Qed.
Print Assumptions C55_feasible.

(** the linearised step solves (I + factor Hess(c^2)) y = x_tilde ... *)
Theorem C55_linearised : forall solve k x xt factor y, solver solve -> length xt = length x -> solve_hess_sq solve k x xt factor = Some y ->
  length y = length x /\ forall i, (i < length x)%nat -> coord i y + factor * msum (length x) (fun j => con_hess_sq k x i j * coord j y) = coord i xt.
Proof. exact hess_solve_ok. Qed.
Print Assumptions C55_linearised.

(** ... a regular system for the sphere at every point outside the ball *)
Theorem C55_linearised_sphere_regular : forall r x factor y z, 0 <= factor -> 0 <= c_value (CSphere r) x ->
  solves (length x) (fun i j => eye i j + factor * con_hess_sq (CSphere r) x i j) z y ->
  (forall i, (i < length x)%nat -> coord i z = 0) -> forall i, (i < length x)%nat -> coord i y = 0.
Proof. exact sphere_regular_value. Qed.
Print Assumptions C55_linearised_sphere_regular.

Example C55_case : 1 + 4 * 1 * c_value (CSphere 1) [2; 0] <> 0 /\ (1 <= 4 * 1 * (1 * 1)) /\
  (exists x, length x = 3%nat /\ sqnorm x = 1 * 1 - 1 / (4 * 1)) /\
  solve_quadric solve1 (fun _ _ => 1) [1] 0 [1] [9] (1/4) = Some [8 / 3] /\ msym (length [1]) (fun _ _ => 1).
Proof. exact ex_step. Qed.
Example C55_solvers : solver solve1 /\ solver solve2.
Proof. exact (conj solve1_ok solve2_ok). Qed.

(** C55. Any number of constraints: the linearised solver of MultiConstraint solves (I + factor H) y = x_tilde, with H the Hessian of the
    sum of the squares of the constraints ... *)
Theorem C55_multi_linearised : forall solve ks x xt factor y, solver solve -> regular_constraints ks (length x) -> length xt = length x ->
  multi_solve solve ks x xt factor = MVec (Some y) -> exists H, hessian_at (violation ks) x H /\ linear_step H factor xt y.
Proof. exact multi_linearised. Qed.
Print Assumptions C55_multi_linearised.

(** ... a matrix determined by the function *)
Theorem C55_hessian_unique : forall f x H1 H2, hessian_at f x H1 -> hessian_at f x H2 ->
  forall i j, (i < length x)%nat -> (j < length x)%nat -> H1 i j = H2 i j.
Proof. exact hessian_unique. Qed.
Print Assumptions C55_hessian_unique.

(** C55. Without constraints the equation has the solution x_tilde only, and the number 0 is returned. *)
Theorem C55_multi_none_refuted : forall solve x xt factor, length xt = length x -> multi_solve solve [] x xt factor = MZero /\
  forall H y, hessian_at (violation []) x H -> linear_step H factor xt y -> y = xt.
Proof. exact multi_none. Qed.
Print Assumptions C55_multi_none_refuted.

(** C55. solve_Id_call_times_hessian: (I + factor sum c(x) Hess c) y = x_tilde for every list of constraints. *)
Theorem C55_multi_call_hessian : forall solve ks x xt factor y, solver solve -> regular_constraints ks (length x) -> length xt = length x ->
  multi_solve_call_hess solve ks x xt factor = Some y ->
  exists Hs, (forall k, In k ks -> hessian_at (c_value k) x (Hs k)) /\
    linear_step (fun i j => Rsum (map (fun k => c_value k x * Hs k i j) ks)) factor xt y.
Proof. exact multi_call_hess_step. Qed.
Print Assumptions C55_multi_call_hessian.

(** C55. solve_Id_plus_call_grad: with one constraint every finite result is the implicit step ... *)
Theorem C55_multi_implicit : forall solve k x xt factor y, solver solve -> fits k (length x) -> symmetric k (length x) -> length xt = length x ->
  multi_solve_plus solve [k] x xt factor = SVal (floats y) -> implicit_step (c_value k) factor x xt y.
Proof. exact multi_plus_one. Qed.
Print Assumptions C55_multi_implicit.

(** ... without constraints x_tilde, with more than one a ValueError *)
Theorem C55_multi_implicit_other : forall solve ks x xt factor, length ks <> 1%nat ->
  multi_solve_plus solve ks x xt factor = match ks with [] => SVal (floats xt) | _ => STooMany end.
Proof. exact multi_plus_other. Qed.
Print Assumptions C55_multi_implicit_other.

(** the circle and a line *)
Example C55_multi_case : exists y, multi_solve solve2 [CSphere 1; CPlane [1; 0] 0] [1; 0] [12; 1] 1 = MVec (Some y) /\ y = [12 / 11; 1] /\
  regular_constraints [CSphere 1; CPlane [1; 0] 0] (length [1; 0]) /\ violation [CSphere 1; CPlane [1; 0] 0] [1; 0] = 1.
Proof. exact ex_multi. Qed.
Example C55_multi_other_case : (exists y, multi_solve_call_hess solve2 [CSphere 1; CSphere 2] [2; 0] [7; 14] 1 = Some y /\ y = [1; 2]) /\
  multi_solve_plus solve2 [CSphere 1] [1; 0] [3; 4] 1 = SVal (floats [3; 4]).
Proof. exact ex_multi_other. Qed.
