(** * Specification: energies for which the weighted mean is undefined *)
From Coq Require Import List Arith Reals.
From Verif Require Import Scalar State Pdyn PdynStep Np.
Import ListNotations.
Open Scope R_scope.

(** a NaN, an energy -inf, or nothing but +inf (alpha > 0) *)
Definition undefined_mean (E : list (fl R)) : Prop :=
  In NaN E \/ In NInf E \/ forall e, In e E -> e = PInf.
