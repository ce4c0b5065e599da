(** * Specification: magnitudes with independent random signs *)
From Coq Require Import List Arith Reals.
From Verif Require Import Scalar Np RVec ConsSpec MomentSpec.
Import ListNotations.
Open Scope R_scope.

(** e has d non-negative entries with the first two moments of the exponential distribution of rate 1 *)
Definition exponentials {Om} (A : average Om) (d : nat) (e : Om -> list R) : Prop :=
  (forall w, length (e w) = d /\ Forall (fun x => 0 <= x) (e w)) /\
  forall i, (i < d)%nat -> mean_is A (fun w => coord i (e w)) 1 /\ mean_is A (fun w => coord i (e w) ^ 2) 2 /\ forall j, (j < d)%nat -> exists r, mean_is A (fun w => coord i (e w) * coord j (e w)) r.
(** s are fair signs, uncorrelated and independent of e *)
Definition fair_signs {Om} (A : average Om) (d : nat) (e s : Om -> list R) : Prop :=
  (forall w, length (s w) = d /\ Forall (fun x => x = 1 \/ x = -1) (s w)) /\
  forall h r, (forall w w', e w = e w' -> h w = h w') -> mean_is A h r -> forall i j, (i < d)%nat -> (j < d)%nat ->
    mean_is A (fun w => coord i (s w) * h w) 0 /\ mean_is A (fun w => coord i (s w) * coord j (s w) * h w) (if (i =? j)%nat then r else 0).
