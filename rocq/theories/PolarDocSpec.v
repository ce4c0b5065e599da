(** * PolarCBO: what the documentation says about the kernels, and which kernel is in use *)
From Coq Require Import List String Bool Reals.
From Verif Require Import Scalar Np RVec Polar PolarObj.
Import ListNotations.
Open Scope R_scope.

(** the kernels of the class documentation, polarcbo.py:164-167, as functions of the distance [r] (the second case of
    'Constant' is left out here) *)
Definition doc_gaussian (kappa r : R) : R := exp (- (1 / (2 * kappa ^ 2)) * r ^ 2).
Definition doc_laplace (kappa r : R) : R := exp (- (1 / kappa) * r).
Definition doc_constant_inside : R := 1.
Definition doc_inverse_quadratic (kappa r : R) : R := 1 / (1 + / kappa * r ^ 2).

(** a comparison of non-negative floats *)
Definition at_most (a b : fl R) : Prop := match a, b with Fin u, Fin v => u <= v | _, PInf => a <> NaN | _, _ => False end.

(** dyn.kappa after some operations: the value assigned last *)
Fixpoint last_kappa (v : fl R) (l : list pop) : fl R :=
  match l with [] => v | PKappa w :: r => last_kappa w r | _ :: r => last_kappa v r end.
(** operations that replace the kernel or its kappa *)
Definition replaces (p : pop) : bool :=
  match p with
  | PKernel (AName s) => match lookup s kernel_dict with Some _ => true | None => false end
  | PKernel (AObject _) | PKernelKappa _ => true
  | _ => false
  end.
