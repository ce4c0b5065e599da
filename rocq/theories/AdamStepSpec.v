(** * Specification: the step of AdamCBO as a function of the drifts a particle has received *)
From Coq Require Import List Arith Reals.
From Verif Require Import RVec ConsSpec AdamSpec.
Import ListNotations.
Open Scope R_scope.

(** quotient of the corrected moments at iteration [it] for the drifts us (oldest first), coordinate i *)
Definition adam_quotient (b0 b1 eps : R) (it : nat) (us : list (list R)) (i : nat) : R :=
  let m := exp_weighted b0 (map (coord i) us) in
  let v := exp_weighted b1 (map (fun u => coord i u * coord i u) us) in
  (m / (1 - b0 ^ S it)) / (sqrt (v / (1 - b1 ^ S it)) + eps).

(** a bound for it that depends on the two rates only; about 23.5 for (0.9, 0.99) *)
Definition adam_gain (b0 b1 : R) : R := sqrt (b1 / ((1 - b1) * (b1 - b0 * b0))).
