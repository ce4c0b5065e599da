(** * Specification: how far the particles moved, and how far they are from the consensus *)
From Coq Require Import List Arith Bool Reals.
From Verif Require Import Scalar Np State Pdyn Exec RVec ConsSpec Cbo CboSpec.
Import ListNotations.
Open Scope R_scope.

(** sum of the squared distances the particles moved *)
Definition moved_sq (X Y : list (list R)) : R := Rsum (map2 (fun x y => sqnorm (vsub y x)) X Y).
(** mean distance of the coordinates to the point c *)
Definition mean_distance (d : nat) (X : list (list R)) (c : list R) : R :=
  Rsum (map (fun x => Rsum (map (fun l => Rabs (coord l x - coord l c)) (seq 0 d))) X) / (INR (length X) * INR d).
(** a scheduler that changes alpha only, and to finite values *)
Definition alpha_sched (sched : st R vec -> res (st R vec)) : Prop := forall q, finite_alpha q -> exists q', sched q = Ok q' /\ alpha_changed q q'.
(** sum of the squared widths of a box *)
Definition box_sq (d : nat) (lo hi : nat -> R) : R := Rsum (map (fun l => (hi l - lo l) ^ 2) (seq 0 d)).
