(** * Specification: the constraint sets of the mirror maps and nearest points *)
From Coq Require Import List Arith Reals.
From Verif Require Import RVec MatSqrt MatSpec.
Import ListNotations.
Open Scope R_scope.

Definition dist (p q : list R) : R := vnorm (vsub p q).
Definition ball (r : R) (c p : list R) : Prop := dist p c <= r.
Definition plane (a : list R) (b : R) (p : list R) : Prop := dot a p = b.
Definition sphere (r : R) (p : list R) : Prop := vnorm p = r.
Definition all_coord (P : R -> Prop) (p : list R) : Prop := forall a, In a p -> P a.
Definition open_box (p : list R) : Prop := all_coord (fun a => -1 < a < 1) p.
(** the boundary of [-r, r]^d *)
Definition square (r : R) (p : list R) : Prop := all_coord (fun a => Rabs a <= r) p /\ exists a, In a p /\ Rabs a = r.
Definition simplex (p : list R) : Prop := all_coord (fun a => 0 <= a) p /\ Rsum p = 1.

(** [p] is a point of [C] closest to [y] among the points of [C] with as many coordinates *)
Definition nearest (C : list R -> Prop) (y p : list R) : Prop :=
  length p = length y /\ C p /\ forall q, length q = length y -> C q -> dist y p <= dist y q.

(** flattened n x k matrices (row after row) with orthonormal columns *)
Definition entry (k : nat) (p : list R) : mat := fun i j => nth (i * k + j) p 0.
Definition stiefel (n k : nat) (p : list R) : Prop := meq k (mmul n (mtr (entry k p)) (entry k p)) mid.

(** the contract of numpy.linalg.svd(full_matrices=False) for n x k matrices with k <= n: y = U diag(s) Vh, U has orthonormal
    columns, Vh is orthogonal, s >= 0 *)
Definition svd_of (n k : nat) (y : list R) (U : mat) (s : nat -> R) (Vh : mat) : Prop :=
  meq k (mmul n (mtr U) U) mid /\ meq k (mmul k Vh (mtr Vh)) mid /\ meq k (mmul k (mtr Vh) Vh) mid /\
  (forall i, (i < k)%nat -> 0 <= s i) /\
  (forall i j, (i < n)%nat -> (j < k)%nat -> entry k y i j = msum k (fun l => U i l * s l * Vh l j)).
