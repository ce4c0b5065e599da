(** * MultiConstraint: the solvers for a list of constraints (cbx/constraints.py:41-63)

    On one particle with finite coordinates, as in [Constraints.v]. *)
From Coq Require Import List Arith Reals.
From Verif Require Import Scalar RVec ConsSpec MatSqrt Cbo Constraints.
Import ListNotations.
Open Scope R_scope.

(** what a solver call does: a value, or one of its three exceptions *)
Inductive solved : Type :=
| SVal (y : vec)
| STooMany               (** ValueError, 57-59 *)
| SNoSolver              (** AttributeError: NoConstraint has no solve_Id_plus_call_grad *)
| SSingular.             (** LinAlgError of numpy *)

Section Multi.
  Variable solve : nat -> mat -> list R -> option (list R).

  (** call_times_hessian_sum, 41-45.  Without constraints it is the number 0; it is called with two or more only. *)
  Definition multi_call_hess (ks : list constraint) (x : list R) : mat := fun i j => Rsum (map (fun k => con k x * con_hess k x i j) ks).

  (** solve_Id_call_times_hessian, 47-54 *)
  Definition multi_solve_call_hess (ks : list constraint) (x xt : list R) (factor : R) : option (list R) :=
    match ks with
    | [] => Some xt
    | [k] => solve_call_hess solve k x xt factor
    | _ => solve (length x) (fun i j => eye i j + factor * multi_call_hess ks x i j) xt
    end.

  (** solve_Id_plus_call_grad of one constraint: 138-141, 157-158, 180-181 *)
  Definition solve_plus (k : constraint) (x xt : list R) (factor : R) : solved :=
    match k with
    | CNone => SNoSolver
    | CPlane a b => SVal (floats (solve_plane a b x xt factor))
    | CSphere r => SVal (solve_sphere r x xt factor)
    | CQuadric A b c => match solve_quadric solve A b c x xt factor with Some y => SVal (floats y) | None => SSingular end
    end.

  (** solve_Id_plus_call_grad, 56-63 *)
  Definition multi_solve_plus (ks : list constraint) (x xt : list R) (factor : R) : solved :=
    match ks with
    | [] => SVal (floats xt)
    | [k] => solve_plus k x xt factor
    | _ => STooMany
    end.
End Multi.
