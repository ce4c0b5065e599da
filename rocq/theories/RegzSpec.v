(** * Distances to sets (specification) *)
From Coq Require Import List Arith Reals.
From Verif Require Import RVec.
Import ListNotations.
Open Scope R_scope.

(** [r] is the Euclidean distance of [x] to the set [S]: attained by a point of [S], and no point of [S] is nearer *)
Definition is_distance (S : list R -> Prop) (x : list R) (r : R) : Prop :=
  (exists y, length y = length x /\ S y /\ vnorm (vsub x y) = r) /\
  forall y, length y = length x -> S y -> r <= vnorm (vsub x y).

Definition hyperplane (a : list R) (b : R) (y : list R) : Prop := dot a y = b.
Definition round_sphere (r : R) (y : list R) : Prop := vnorm y = r.
