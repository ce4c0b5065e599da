(** * The regulariser functions (cbx/regularizers.py:5-48)

    On one particle with finite coordinates; NumPy applies the same operations to all particles. *)
From Coq Require Import List Arith Bool Reals.
From Verif Require Import Scalar Np RVec ConsSpec PostProc MatSqrt.
Import ListNotations.
Open Scope R_scope.

(** np.isclose(t, 0) with the default tolerances: |t| <= 1e-8 + 1e-5 * |0| *)
Definition close0 (t : R) : bool := negb (Rltb (1 / 100000000) (Rabs t)).
(** L0.__call__, regularizers.py:9-10 *)
Definition l0 (lamda : R) (x : list R) : R := lamda * INR (length (filter (fun t => negb (close0 t)) x)).

(** L1.__call__, regularizers.py:16-17 *)
Definition l1 (lamda : R) (x : list R) : R := lamda * Rsum (map Rabs x).

(** the argument [a] of HyperplaneDistance: a number (the default is 1) or an array *)
Inductive normal : Type := NScalar (a : R) | NVector (a : list R).
(** [a*x]: a number or an array of one entry is broadcast along the coordinates *)
Definition ntimes (a : normal) (x : list R) : res (list R) :=
  match a with
  | NScalar a => Ok (vscal a x)
  | NVector a => if (length a =? length x)%nat then Ok (map2 Rmult a x)
                 else match a with [a0] => Ok (vscal a0 x) | _ => match x with [x0] => Ok (map (fun a0 => a0 * x0) a) | _ => Err ShapeError end end
  end.
(** np.linalg.norm(a), regularizers.py:22; of a number: its absolute value *)
Definition nnorm (a : normal) : R := match a with NScalar a => Rabs a | NVector a => vnorm a end.
(** HyperplaneDistance.__call__, regularizers.py:25-26 *)
Definition plane_reg (a : normal) (b : R) (x : list R) : res (fl R) :=
  p <- ntimes a x ;; Ok (fdiv (Fin (Rabs (Rsum p - b))) (Fin (nnorm a))).

(** SphereDistance.__call__, regularizers.py:33-34 *)
Definition sphere_reg (r : R) (x : list R) : R := Rabs (vnorm x - r).

(** [x@A.T] *)
Definition vmat_t (A : mat) (x : list R) : list R := let d := length x in map (fun i => msum d (fun j => coord j x * A i j)) (seq 0 d).
(** QuadricDistance.__call__, regularizers.py:42-47; [None]: an argument left at its default None, for which the call raises
    (AttributeError for A, TypeError for b; one value here) *)
Definition quadric_reg (A : option mat) (b : option (list R)) (c : R) (x : list R) : res R :=
  match A, b with
  | Some A, Some b => Ok (Rabs (dot x (vmat_t A x) + dot x b + c))
  | _, _ => Err TypeError
  end.
