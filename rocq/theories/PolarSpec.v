(** * Specification of convex combinations and polarised weights *)
From Coq Require Import List Arith Reals.
From Verif Require Import Scalar RVec ConsSpec.
Import ListNotations.
Open Scope R_scope.

(** sum_j ws_j X_j and convexity of the coefficients *)
Definition combination (ws : list R) (d : nat) (X : list (list R)) : list R :=
  map (fun k => Rsum (map (fun q => fst q * coord k (snd q)) (combine ws X))) (seq 0 d).
Definition convex (ws : list R) : Prop := (forall w, In w ws -> 0 <= w) /\ Rsum ws = 1.

(** Weight of a particle with energy e whose kernel value is exp(-n): kernel^kf * exp(-a e);
    kernel value 0 (n = +inf) or energy +inf give weight 0. *)
Definition pweight (a kf : R) (n e : fl R) : R := match n, e with Fin n, Fin e => exp (- (kf * n)) * exp (- (a * e)) | _, _ => 0 end.

(** normalised weights *)
Definition polar_ws (a kf : R) (nlrow e : list (fl R)) : list R :=
  map (fun q => pweight a kf (fst q) (snd q) / Rsum (map (fun q => pweight a kf (fst q) (snd q)) (combine nlrow e))) (combine nlrow e).

(** admissible kernel widths: positive or +inf *)
Definition kappa_ok (k : fl R) : Prop := match k with Fin x => 0 < x | PInf => True | _ => False end.
