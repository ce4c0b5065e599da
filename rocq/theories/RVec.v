(** * Sums and vectors of real numbers *)
From Coq Require Import List Arith Reals Permutation Lia Lra.
From Verif Require Import Np.
Import ListNotations.
Open Scope R_scope.

Definition Rsum (l : list R) : R := fold_right Rplus 0 l.
Definition dot (u v : list R) : R := Rsum (map2 Rmult u v).
Definition vadd (u v : list R) : list R := map2 Rplus u v.
Definition vsub (u v : list R) : list R := map2 Rminus u v.
Definition vscal (a : R) (u : list R) : list R := map (Rmult a) u.
Definition sqnorm (u : list R) : R := dot u u.
Definition vnorm (u : list R) : R := sqrt (sqnorm u).
