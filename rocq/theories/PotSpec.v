(** * Specification: the convex functions of the mirror maps *)
From Coq Require Import List Arith Reals.
From Verif Require Import Scalar RVec ConsSpec MatSqrt MatSpec Cbo CboSpec MirrorMaps MirrorSpec ConSpec Potentials.
Import ListNotations.
Open Scope R_scope.

(** a sum over the coordinates *)
Definition sep (phi : R -> R) (x : list R) : R := Rsum (map phi x).
Definition half_sq (lamda t : R) : R := lamda / 2 * t ^ 2.
Definition net (delta lamda t : R) : R := t ^ 2 / (2 * delta) + lamda * Rabs t.
Definition log_box (t : R) : R := - ln (1 - t) - ln (1 + t).
Definition rational_barrier (t : R) : R := Rabs t / (1 - Rabs t).
Definition entropy (t : R) : R := - (t * ln t).

Definition anywhere (x : list R) : Prop := True.
(** [x] is a point of D where <y, .> - F is largest *)
Definition conjugate_point (D : list R -> Prop) (F : list R -> R) (y x : list R) : Prop :=
  length x = length y /\ D x /\ forall p, length p = length y -> D p -> dot y p - F p <= dot y x - F x.
(** the difference of F p and the linear function with slope g through (q, F q) *)
Definition breg (F : list R -> R) (g p q : list R) : R := F p - F q - dot g (vsub p q).
(** hessian is the derivative of grad at x, a map that is finite on D *)
Definition hess_ok (m : mirror_map) (D : list R -> Prop) (x : list R) : Prop :=
  exists g H Hf, (forall p, D p -> mm_grad m (floats p) = floats (g p)) /\ jacobian_at g x H /\ mm_hess m (floats x) = Some Hf /\
    forall i j, (i < length x)%nat -> (j < length x)%nat -> Hf i j = Fin (H i j).
