(** * Specification: the moves of HyperSurfaceCBO *)
From Coq Require Import List Arith Bool Reals.
From Verif Require Import Scalar Np State Pdyn Exec RVec ConsSpec Cbo CboSpec HyperMaps HyperSpec HyperRun Variant MomentSpec.
Import ListNotations.
Open Scope R_scope.

(** variance of coordinate i of the noise, per unit of time and for sigma = 1 *)
Definition strength (k : noise_model) (u : list R) (i : nat) : R :=
  match k with NConst => 1 | NIso => sqnorm u | NAniso => coord i u * coord i u end.
(** expected squared length of the part of the noise tangent to the unit sphere at x: sum of strength_i |e_i - x_i x|^2 *)
Definition spread_tangent (k : noise_model) (x u : list R) : R :=
  Rsum (map (fun i => strength k u i * (1 - coord i x * coord i x)) (seq 0 (length x))).
(** sum u_i^2 x_i^2 *)
Definition weighted (u x : list R) : R := Rsum (map (fun i => coord i u * coord i u * (coord i x * coord i x)) (seq 0 (length x))).

(** what the correction misses, to first order in dt and per sigma^2: 0 if the squared distance from the centre is kept on average up to dt^2 *)
Definition defect (k : noise_model) (x u : list R) : R :=
  match k with
  | NIso => 0
  | NConst => (INR (length x) - 1) * (1 - sqnorm u)
  | NAniso => - 2 * (weighted u x - dot u x * dot u x)
  end.

(** [moves c S d n s s']: n steps with finite draws while all runs are active; in between there may be termination checks *)
Inductive moves (c : cfg R vec) (S : @surface R vec) (d : nat) (s : st R vec) : nat -> st R vec -> Prop :=
| mv_start : moves c S d s 0 s
| mv_step : forall n s1 o s2, moves c S d s n s1 -> s_active s1 <> [] -> length (s_active s1) = s_M s1 -> perms_valid o s1 -> finite_draws d o ->
    vstep (hyper_inner S) c o (s1, tt) = Ok (s2, tt) -> moves c S d s (Datatypes.S n) s2
| mv_term : forall n s1 b s2, moves c S d s n s1 -> terminate c s1 = Ok (b, s2) -> moves c S d s n s2.

(** the point of the plane nearest to the origin *)
Definition foot (a : list R) (b : R) : list R := vscal (b / sqnorm a) a.
