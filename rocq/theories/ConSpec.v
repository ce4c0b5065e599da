(** * Specification: directional derivatives and linear systems *)
From Coq Require Import List Arith Reals.
From Verif Require Import RVec ConsSpec MatSqrt MatSpec Constraints.
Import ListNotations.
Open Scope R_scope.

(** the derivative of f at x in direction h is l *)
Definition dir_deriv (f : list R -> R) (x h : list R) (l : R) : Prop := derivable_pt_lim (fun t => f (vadd x (vscal t h))) 0 l.
(** [g] is the gradient of f at x *)
Definition gradient_at (f : list R -> R) (x g : list R) : Prop :=
  length g = length x /\ forall h, length h = length x -> dir_deriv f x h (dot g h).
(** [H] is the Jacobian matrix of the vector field g at x *)
Definition jacobian_at (g : list R -> list R) (x : list R) (H : mat) : Prop :=
  forall h i, length h = length x -> (i < length x)%nat ->
    dir_deriv (fun p => coord i (g p)) x h (msum (length x) (fun j => H i j * coord j h)).
(** M y = v *)
Definition solves (d : nat) (M : mat) (v y : list R) : Prop :=
  length y = d /\ forall i, (i < d)%nat -> msum d (fun j => M i j * coord j y) = coord i v.
(** the contract of numpy.linalg.solve *)
Definition solver (solve : nat -> mat -> list R -> option (list R)) : Prop :=
  forall d M v y, length v = d -> solve d M v = Some y -> solves d M v y.

(** the constraint functions of the documentation, written out *)
Definition c_value (k : constraint) (x : list R) : R :=
  match k with
  | CNone => 0
  | CPlane a b => (msum (length a) (fun i => coord i a * coord i x) - b) / sqrt (msum (length a) (fun i => coord i a * coord i a))
  | CSphere r => msum (length x) (fun i => coord i x * coord i x) - r * r
  | CQuadric A b c => msum (length x) (fun i => msum (length x) (fun j => coord i x * A i j * coord j x)) + msum (length x) (fun i => coord i b * coord i x) + c
  end.
(** the parameters have the dimension of the point; a is not zero *)
Definition fits (k : constraint) (d : nat) : Prop :=
  match k with CNone => True | CPlane a b => length a = d /\ vnorm a <> 0 | CSphere r => True | CQuadric A b c => length b = d end.
Definition symmetric (k : constraint) (d : nat) : Prop := match k with CQuadric A _ _ => msym d A | _ => True end.
(** y + 2 factor f(x) grad f(y) = x_tilde *)
Definition implicit_step (f : list R -> R) (factor : R) (x xt y : list R) : Prop :=
  length y = length xt /\
  exists g, gradient_at f y g /\ forall i, (i < length xt)%nat -> coord i y + 2 * factor * f x * coord i g = coord i xt.
