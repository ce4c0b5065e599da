(** * Specification of the weighted mean, on real numbers *)
From Coq Require Import List Arith Reals.
From Verif Require Import Scalar RVec.
Import ListNotations.
Open Scope R_scope.

(** Energies are numbers; +inf is allowed for alpha > 0; at least one is finite. *)
Definition admissible (a : R) (E : list (fl R)) : Prop :=
  (forall e, In e E -> (exists x, e = Fin x) \/ (e = PInf /\ 0 < a)) /\ (exists x, In (Fin x) E).

(** The Gibbs weight of an energy. *)
Definition gibbs (a : R) (e : fl R) : R := match e with Fin x => exp (- a * x) | _ => 0 end.

(** [X] is an ensemble of N points with d coordinates each. *)
Definition ensemble (N d : nat) (X : list (list R)) : Prop :=
  length X = N /\ forall p, In p X -> length p = d.

Definition floats (p : list R) : list (fl R) := map Fin p.
Definition coord (i : nat) (p : list R) : R := nth i p 0.

(** The coordinate [i] of the Gibbs mean. *)
Definition gibbs_mean (a : R) (E : list (fl R)) (X : list (list R)) (i : nat) : R :=
  Rsum (map (fun q => gibbs a (fst q) * coord i (snd q)) (combine E X)) / Rsum (map (gibbs a) E).
Definition gibbs_point (a : R) (E : list (fl R)) (d : nat) (X : list (list R)) : list R :=
  map (gibbs_mean a E X) (seq 0 d).
