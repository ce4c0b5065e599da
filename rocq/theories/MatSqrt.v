(** * compute_mat_sqrt, on d x d matrices given as functions of the indices

    cbx/dynamics/pdyn.py:561-573.  [np.linalg.eigh] is external: its results B (eigenvalues) and V
    (eigenvectors in columns) are arguments. *)
From Coq Require Import List Arith Reals.
From Verif Require Import Scalar RVec.
Import ListNotations.
Open Scope R_scope.

Definition mat := nat -> nat -> R.
(** sum over k < d *)
Definition msum (d : nat) (f : nat -> R) : R := Rsum (map f (seq 0 d)).
Definition mmul (d : nat) (A B : mat) : mat := fun i j => msum d (fun k => A i k * B k j).
Definition mtr (A : mat) : mat := fun i j => A j i.

(** [V@(np.sqrt(np.maximum(B,0.))[...,None]*np.moveaxis(V,-1,-2))], pdyn.py:571-573 *)
Definition mat_sqrt (d : nat) (B : nat -> R) (V : mat) : mat :=
  mmul d V (fun k j => sqrt (Rmax (B k) 0) * mtr V k j).

(** compute_mat_sqrt on floats.  For a matrix with a non-finite entry eigh raises or returns NaN;
    the result here is NaN. *)
Definition finite_entries (d : nat) (A : nat -> nat -> fl R) : bool :=
  forallb (fun i => forallb (fun j => match A i j with Fin _ => true | _ => false end) (seq 0 d)) (seq 0 d).
Definition real_entries (A : nat -> nat -> fl R) : mat := fun i j => match A i j with Fin a => a | _ => 0 end.
Definition compute_mat_sqrt (eigh : nat -> mat -> (nat -> R) * mat) (d : nat) (A : nat -> nat -> fl R) : nat -> nat -> fl R :=
  if finite_entries d A
  then let '(B, V) := eigh d (real_entries A) in fun i j => Fin (mat_sqrt d B V i j)
  else fun _ _ => NaN.
