(** * Specification: sessions of CBO with rounding *)
From Coq Require Import List Arith Bool Reals.
From Verif Require Import Scalar Np State Pdyn Exec RVec ConsSpec Cbo CboSpec ClockSpec.
Import ListNotations.
Open Scope R_scope.

(** relative error u, error eta of underflows; zero and rounded numbers are exact *)
Record rounding (u eta : R) (rnd : R -> R) : Prop := {
  ro_u : 0 <= u <= 1 / 8; ro_eta : 0 <= eta;
  ro_rnd : forall x, Rabs (rnd x - x) <= u * Rabs x + eta;
  ro_0 : rnd 0 = 0; ro_id : forall x, rnd (rnd x) = rnd x; ro_pos : forall x, 0 <= x -> 0 <= rnd x }.
(** sums of non-negative numbers are non-negative *)
Definition positive_sums (sum : list R -> R) : Prop := forall l, (forall x, In x l -> 0 <= x) -> 0 <= sum l.

(** alpha of every run is finite and at most A in absolute value *)
Definition alpha_within (A : R) (s : st R vec) : Prop := forall m, (m < s_M s)%nat -> exists a, nth_error (s_alpha s) m = Some [Fin a] /\ Rabs a <= A.
(** n steps in which run m is active, with termination checks and changes of alpha in between *)
Inductive rounded_steps (rnd : R -> R) (A : R) (c : cfg R vec) (m d : nat) (s : st R vec) : nat -> st R vec -> Prop :=
| rs_start : rounded_steps rnd A c m d s 0 s
| rs_step : forall n s1 o s2, rounded_steps rnd A c m d s n s1 -> In m (s_active s1) -> perms_valid o s1 -> finite_draws d o ->
    @step R vec (KOps_rounded rnd) c o s1 = Ok s2 -> rounded_steps rnd A c m d s (S n) s2
| rs_term : forall n s1 b s2, rounded_steps rnd A c m d s n s1 -> @terminate R vec (KOps_rounded rnd) c s1 = Ok (b, s2) -> rounded_steps rnd A c m d s n s2
| rs_alpha : forall n s1 al, rounded_steps rnd A c m d s n s1 -> is_array (s_M s1) 1 al -> alpha_within A (set_alpha al s1) -> rounded_steps rnd A c m d s n (set_alpha al s1).

(** all coordinates have absolute value at most B *)
Definition within (B : R) (X : list (list R)) : Prop := forall p, In p X -> forall i, (i < length p)%nat -> Rabs (coord i p) <= B.
(** the differences of coordinates in Y are at most r times those in X, up to e *)
Definition nearer (d : nat) (r e : R) (X Y : list (list R)) : Prop := forall i j xi xj yi yj l, nth_error X i = Some xi -> nth_error X j = Some xj ->
  nth_error Y i = Some yi -> nth_error Y j = Some yj -> (l < d)%nat -> Rabs (coord l yi - coord l yj) <= r * Rabs (coord l xi - coord l xj) + e.
(** the computed consensus of b particles with coordinates of absolute value at most B is a point with coordinates at most C *)
Definition consensus_within (d b : nat) (B C A : R) (c : cfg R vec) : Prop := forall Xb a, length Xb = b -> (forall p, In p Xb -> length p = d) -> within B Xb -> Rabs a <= A ->
  exists cp, c_ccrow c (map (c_f c) (map floats Xb)) (map floats Xb) (Fin a) = [floats cp] /\ length cp = d /\ forall i, (i < d)%nat -> Rabs (coord i cp) <= C.
(** the values of the objective are finite and at most F where coordinates are at most B *)
Definition objective_within (d : nat) (B F : R) (f : vec -> fl R) : Prop := forall p, length p = d -> (forall i, (i < d)%nat -> Rabs (coord i p) <= B) ->
  exists y, f (floats p) = Fin y /\ Rabs y <= F.
