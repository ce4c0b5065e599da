(** * Specification: symmetric and positive semidefinite matrices, eigendecompositions *)
From Coq Require Import List Arith Reals.
From Verif Require Import RVec MatSqrt.
Open Scope R_scope.

Definition msym (d : nat) (A : mat) : Prop := forall i j, (i < d)%nat -> (j < d)%nat -> A i j = A j i.
(** v^T A v >= 0 *)
Definition mquad (d : nat) (A : mat) (v : nat -> R) : R := msum d (fun i => msum d (fun j => v i * A i j * v j)).
Definition mpsd (d : nat) (A : mat) : Prop := msym d A /\ forall v, 0 <= mquad d A v.
Definition meq (d : nat) (A B : mat) : Prop := forall i j, (i < d)%nat -> (j < d)%nat -> A i j = B i j.
Definition mid : mat := fun i j => if Nat.eqb i j then 1 else 0.

(** the contract of eigh: A = V diag(B) V^T with V orthogonal *)
Definition eigen (d : nat) (A : mat) (B : nat -> R) (V : mat) : Prop :=
  meq d (mmul d (mtr V) V) mid /\ meq d (mmul d V (mtr V)) mid /\
  meq d (mmul d V (mmul d (fun i j => if Nat.eqb i j then B i else 0) (mtr V))) A.
