(** * Specification: averages over random draws *)
From Coq Require Import List Arith Bool Reals.
From Verif Require Import Scalar Np RVec ConsSpec.
Import ListNotations.
Open Scope R_scope.

(** A notion of mean value for functions of the draws: any linear one, for instance the expectation of a probability
    measure on the integrable functions. *)
Record average (Om : Type) : Type := {
  mean_is : (Om -> R) -> R -> Prop;
  avg_ext : forall g h r, (forall w, g w = h w) -> mean_is g r -> mean_is h r;
  avg_const : forall r, mean_is (fun _ => r) r;
  avg_add : forall g h r q, mean_is g r -> mean_is h q -> mean_is (fun w => g w + h w) (r + q);
  avg_scal : forall a g r, mean_is g r -> mean_is (fun w => a * g w) (a * r) }.
Arguments mean_is {Om}.

(** the draws xi have d uncorrelated entries with mean 0 and variance v *)
Definition white {Om} (A : average Om) (d : nat) (v : R) (xi : Om -> list R) : Prop :=
  (forall w, length (xi w) = d) /\
  (forall i, (i < d)%nat -> mean_is A (fun w => coord i (xi w)) 0) /\
  forall i j, (i < d)%nat -> (j < d)%nat -> mean_is A (fun w => coord i (xi w) * coord j (xi w)) (if (i =? j)%nat then v else 0).

(** a finite list of equally likely outcomes *)
Definition uniform_mean {Om} (l : list Om) (g : Om -> R) (r : R) : Prop := r = Rsum (map g l) / INR (length l).

(** entry i, k of the covariance of the ensemble X with Gibbs weights *)
Definition gibbs_cov (a : R) (E : list (fl R)) (X : list (list R)) (i k : nat) : R :=
  Rsum (map (fun q => gibbs a (fst q) * ((coord i (snd q) - gibbs_mean a E X i) * (coord k (snd q) - gibbs_mean a E X k))) (combine E X)) / Rsum (map (gibbs a) E).
