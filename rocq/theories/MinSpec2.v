(** * Specification of the multimodal objectives: one factor per scale, written out *)
From Coq Require Import List Reals.
Import ListNotations.
Open Scope R_scope.

(** the factor of scale [a] at the point [x], written out *)
Definition rastrigin_factor (a : R) (x : list R) : R := fold_right Rplus 0 (map (fun v => (a * v) ^ 2 + 10 * (1 - cos (2 * PI * (a * v)))) x).
Definition ackley_factor (a : R) (x : list R) : R :=
  20 * (1 - exp (- (1 / 5) * sqrt (fold_right Rplus 0 (map (fun v => (a * v) ^ 2) x) / INR (length x)))) +
  (exp 1 - exp (fold_right Rplus 0 (map (fun v => cos (2 * PI * (a * v))) x) / INR (length x))).
Definition scales (alpha : option (list R)) : list R := match alpha with Some (a :: l) => a :: l | _ => [1] end.
