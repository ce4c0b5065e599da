(** * Constraints (cbx/constraints.py)

    On one particle with finite coordinates; NumPy applies the same operations to all particles (the leading
    axes).  [np.linalg.solve] is external: [solve d M v] is its result, None if it raises LinAlgError. *)
From Coq Require Import List Arith Reals.
From Verif Require Import Scalar Np RVec ConsSpec MatSqrt Cbo.
Import ListNotations.
Open Scope R_scope.

Inductive constraint : Type :=
| CNone                                          (** NoConstraint, 105-116 *)
| CPlane (a : list R) (b : R)                    (** planeConstraint, 162-182 *)
| CSphere (r : R)                                (** sphereConstraint, 143-158 *)
| CQuadric (A : mat) (b : list R) (c : R).       (** quadricConstraint, 119-141 *)

(** [x @ A] *)
Definition vmat (x : list R) (A : mat) : list R := let d := length x in map (fun j => msum d (fun i => coord i x * A i j)) (seq 0 d).
(** [np.eye] *)
Definition eye : mat := fun i j => if Nat.eqb i j then 1 else 0.

(** __call__: 109-110, 168-169, 148-149, 125-130 *)
Definition con (k : constraint) (x : list R) : R :=
  match k with
  | CNone => 0
  | CPlane a b => (dot a x - b) / vnorm a
  | CSphere r => vnorm x ^ 2 - r ^ 2
  | CQuadric A b c => dot x (vmat x A) + dot x b + c
  end.

(** grad: 112-113, 171-172, 151-152, 132-133 *)
Definition con_grad (k : constraint) (x : list R) : list R :=
  match k with
  | CNone => map (fun _ => 0) x
  | CPlane a b => map (fun ai => ai / vnorm a) a
  | CSphere r => vscal 2 x
  | CQuadric A b c => vadd (vmat (vscal 2 x) A) b
  end.

(** hessian: 115-116, 174-175, 154-155, 135-136 *)
Definition con_hess (k : constraint) (x : list R) : mat :=
  match k with
  | CNone | CPlane _ _ => fun _ _ => 0
  | CSphere r => fun i j => 2 * eye i j
  | CQuadric A b c => fun i j => 2 * A i j
  end.

(** Constraint.squared, grad_squared, hessian_squared, call_times_hessian: 80-92 *)
Definition con_sq (k : constraint) (x : list R) : R := con k x ^ 2.
Definition con_grad_sq (k : constraint) (x : list R) : list R := vscal (2 * con k x) (con_grad k x).
Definition con_hess_sq (k : constraint) (x : list R) : mat :=
  fun i j => 2 * (coord i (con_grad k x) * coord j (con_grad k x) + con k x * con_hess k x i j).
Definition con_call_hess (k : constraint) (x : list R) : mat := fun i j => con k x * con_hess k x i j.

Section Solve.
  Variable solve : nat -> mat -> list R -> option (list R).

  (** solve_Id_call_times_hessian, 94-99 and 177-178 *)
  Definition solve_call_hess (k : constraint) (x xt : list R) (factor : R) : option (list R) :=
    match k with
    | CPlane _ _ => Some xt
    | _ => solve (length x) (fun i j => eye i j + factor * con_call_hess k x i j) xt
    end.

  (** solve_Id_hessian_squared, 101-103 *)
  Definition solve_hess_sq (k : constraint) (x xt : list R) (factor : R) : option (list R) :=
    solve (length x) (fun i j => eye i j + factor * con_hess_sq k x i j) xt.

  (** solve_Id_plus_call_grad of the plane (180-181) and the quadric (138-141) *)
  Definition solve_plane (a : list R) (b : R) (x xt : list R) (factor : R) : list R :=
    vsub xt (map (fun ai => 2 * factor * con (CPlane a b) x * ai / vnorm a) a).
  Definition solve_quadric (A : mat) (b : list R) (c : R) (x xt : list R) (factor : R) : option (list R) :=
    let cx := con (CQuadric A b c) x in
    solve (length x) (fun i j => eye i j + 4 * factor * cx * A i j) (vsub xt (vscal (2 * factor * cx) b)).

  (** MultiConstraint, 7-77 *)
  Definition multi_sq (ks : list constraint) (x : list R) : R := Rsum (map (fun k => con_sq k x) ks).
  Definition multi_grad_sq (ks : list constraint) (x : list R) : list R :=
    fold_left (fun out k => vadd out (con_grad_sq k x)) ks (map (fun _ => 0) x).
  Definition multi_hess_sq (ks : list constraint) (x : list R) : mat := fun i j => Rsum (map (fun k => con_hess_sq k x i j) ks).
  (** solve_Id_hessian_squared_sum, 65-77.  [None]: LinAlgError.  Without constraints the number 0 is returned. *)
  Inductive multi_result : Type := MZero | MVec (y : option (list R)).
  Definition multi_solve (ks : list constraint) (x xt : list R) (factor : R) : multi_result :=
    match ks with
    | [] => MZero
    | [k] => MVec (solve_hess_sq k x xt factor)
    | _ => MVec (solve (length x) (fun i j => eye i j + factor * multi_hess_sq ks x i j) xt)
    end.
End Solve.

(** solve_Id_plus_call_grad of the sphere, 157-158: the division may give inf or NaN *)
Definition solve_sphere (r : R) (x xt : list R) (factor : R) : vec :=
  map (fmul (fdiv (Fin 1) (Fin (1 + 4 * factor * (vnorm x ^ 2 - r ^ 2))))) (floats xt).
