(** * Specification: second derivatives and the equations of the solvers *)
From Coq Require Import List Arith Reals.
From Verif Require Import RVec ConsSpec MatSqrt MatSpec Constraints ConSpec.
Import ListNotations.
Open Scope R_scope.

(** [H] is the Hessian matrix of f at x *)
Definition hessian_at (f : list R -> R) (x : list R) (H : mat) : Prop :=
  exists g, (forall p, length p = length x -> gradient_at f p (g p)) /\ jacobian_at g x H.
(** (I + factor H) y = x_tilde *)
Definition linear_step (H : mat) (factor : R) (xt y : list R) : Prop :=
  length y = length xt /\ forall i, (i < length xt)%nat -> coord i y + factor * msum (length xt) (fun j => H i j * coord j y) = coord i xt.
(** the sum of the squares of the constraints *)
Definition violation (ks : list constraint) (x : list R) : R := Rsum (map (fun k => c_value k x ^ 2) ks).
Definition regular_constraints (ks : list constraint) (d : nat) : Prop := forall k, In k ks -> fits k d /\ symmetric k d.
