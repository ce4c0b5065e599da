(** * Specification: Gaussian densities *)
From Coq Require Import List Arith Reals.
From Verif Require Import RVec MatSqrt MatSpec.
Import ListNotations.
Open Scope R_scope.

Definition positive_definite (d : nat) (C : mat) : Prop := forall v, (exists i, (i < d)%nat /\ v i <> 0) -> 0 < mquad d C v.
(** eigh decomposes C *)
Definition eigh_ok (eigh : nat -> mat -> (nat -> R) * mat) (d : nat) (C : mat) : Prop := eigen d C (fst (eigh d C)) (snd (eigh d C)).
Fixpoint prodn (d : nat) (f : nat -> R) : R := match d with 0%nat => 1 | S n => prodn n f * f n end.
(** D is the product of the eigenvalues of C *)
Definition det_is (eigh : nat -> mat -> (nat -> R) * mat) (d : nat) (C : mat) (D : R) : Prop := D = prodn d (fst (eigh d C)).
(** exp(-(x-m)^T P (x-m) / 2) / sqrt((2 pi)^d D) *)
Definition density (m : list R) (P : mat) (D : R) (x : list R) : R :=
  exp (- mquad (length m) P (fun i => nth i x 0 - nth i m 0) / 2) / sqrt ((2 * PI) ^ length m * D).
Definition inverse_of (d : nat) (C P : mat) : Prop := meq d (mmul d P C) mid.
