(** * Specification: surfaces and their tangent spaces *)
From Coq Require Import List Arith Reals.
From Verif Require Import Scalar RVec ConsSpec Cbo MatSqrt MatSpec MirrorSpec HyperMaps.
Import ListNotations.
Open Scope R_scope.

Definition on_surface (s : sdf) (p : list R) : Prop :=
  match s with SphereD => sphere 1 p | PlaneD a b => plane a b p | StiefelD n k _ => stiefel n k p end.

(** t is a tangent vector of the surface at x *)
Definition tangent (s : sdf) (x t : list R) : Prop :=
  match s with
  | SphereD => dot x t = 0
  | PlaneD a b => dot a t = 0
  | StiefelD n k _ => forall i j, (i < k)%nat -> (j < k)%nat ->
      msum n (fun l => entry k t l i * entry k x l j) + msum n (fun l => entry k x l i * entry k t l j) = 0
  end.

(** the surface lives in dimension d > 0, its parameters make sense, and svd keeps its contract *)
Definition surface_ok (s : sdf) (d : nat) : Prop :=
  (0 < d)%nat /\
  match s with
  | SphereD => True
  | PlaneD a b => length a = d /\ vnorm a <> 0
  | StiefelD n k svd => (k <= n)%nat /\ d = (n * k)%nat /\
      forall w U Vh, svd w = Some (U, Vh) -> exists y sg, w = floats y /\ length y = (n * k)%nat /\ svd_of n k y U sg Vh
  end.
