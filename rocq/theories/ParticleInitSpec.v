(** * Specification: singular value decompositions, initial arrays *)
From Coq Require Import List Arith Reals.
From Verif Require Import Scalar Np Nd RVec MatSqrt MatSpec MomentSpec ParticleInit.
Import ListNotations.
Open Scope R_scope.

(** the contract of np.linalg.svd: A = u diag(s) v, u and v orthogonal, s >= 0 *)
Definition is_svd (d : nat) (A : mat) (r : mat * (nat -> R) * mat) : Prop :=
  let '(u, s, v) := r in meq d (mmul d (mtr u) u) mid /\ meq d (mmul d v (mtr v)) mid /\ meq d (mmul d (mtr v) v) mid /\ (forall k, (k < d)%nat -> 0 <= s k) /\
  meq d (fun i j => msum d (fun k => u i k * (s k * v k j))) A.
(** ... for the covariance delta^2 eye(d) *)
Definition svd_ok (svd : svd_fun) (delta : R) : Prop := forall d, is_svd d (fun i j => delta ^ 2 * mid i j) (svd d (fun i j => delta ^ 2 * eye i j)).

(** an index of an array of this shape *)
Fixpoint inside (i shape : list nat) : Prop :=
  match i, shape with [], [] => True | a :: i, n :: shape => (a < n)%nat /\ inside i shape | _, _ => False end.
(** draws of random(): values in [0,1), with the first two moments of the uniform distribution *)
Definition in_unit (U : list nat -> R) : Prop := forall i, 0 <= U i < 1.
Definition flat {Om} (A : average Om) (U : Om -> list nat -> R) : Prop :=
  forall i, mean_is A (fun w => U w i) (/ 2) /\ mean_is A (fun w => U w i ^ 2) (/ 3).
(** draws of standard_normal(): uncorrelated, mean 0 and variance 1 *)
Definition standard {Om} (A : average Om) (shape : list nat) (Z : Om -> list nat -> R) : Prop :=
  forall i k, inside i shape -> inside k shape -> mean_is A (fun w => Z w i) 0 /\ mean_is A (fun w => Z w i * Z w k) (if list_eq_dec Nat.eq_dec i k then 1 else 0).
