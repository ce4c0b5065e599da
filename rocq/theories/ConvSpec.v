(** * Specification: convex sets and functions, noise-free runs *)
From Coq Require Import List Arith Bool Reals.
From Verif Require Import Scalar Np State Pdyn Exec RVec ConsSpec Cbo CboSpec.
Import ListNotations.
Open Scope R_scope.

(** the point (1-t) p + t q *)
Definition mix (t : R) (p q : list R) : list R := vadd (vscal (1 - t) p) (vscal t q).
Definition convex_set (d : nat) (C : list R -> Prop) : Prop :=
  forall p q t, length p = d -> length q = d -> C p -> C q -> 0 <= t <= 1 -> C (mix t p q).
(** g lies below its chords *)
Definition convex_fun (d : nat) (g : list R -> R) : Prop :=
  forall p q t, length p = d -> length q = d -> 0 <= t <= 1 -> g (mix t p q) <= (1 - t) * g p + t * g q.
(** g on a segment is at most its larger end value *)
Definition quasiconvex (d : nat) (g : list R -> R) : Prop :=
  forall p q t, length p = d -> length q = d -> 0 <= t <= 1 -> g (mix t p q) <= Rmax (g p) (g q).
(** the objective is the real function g *)
Definition objective_is (d : nat) (f : vec -> fl R) (g : list R -> R) : Prop := forall p, length p = d -> f (floats p) = Fin (g p).

(** no noise, and a step moves at most to the consensus *)
Definition quiet (s : st R vec) : Prop := exists la dt, parameters la dt 0 s /\ 0 <= la * dt <= 1.
(** [quietly c d s s']: as [later], the parameters always quiet *)
Inductive quietly (c : cfg R vec) (d : nat) (s : st R vec) : st R vec -> Prop :=
| qu_start : quietly c d s s
| qu_step : forall s1 o s2, quietly c d s s1 -> perms_valid o s1 -> finite_draws d o -> step c o s1 = Ok s2 -> quietly c d s s2
| qu_term : forall s1 b s2, quietly c d s s1 -> terminate c s1 = Ok (b, s2) -> quietly c d s s2
| qu_params : forall s1 s2, quietly c d s s1 -> params_changed s1 s2 -> finite_alpha s2 -> quiet s2 -> quietly c d s s2
| qu_reset : forall s1, quietly c d s s1 -> quietly c d s (reset s1).

(** post-processing keeps the points of C in C *)
Definition keeps_in (C : list R -> Prop) (d : nat) (pp : vec -> vec) : Prop :=
  forall q, length q = d -> C q -> exists p, pp (floats q) = floats p /\ length p = d /\ C p.
(** Gibbs mean of the energies *)
Definition gibbs_energy (a : R) (E : list R) : R := Rsum (map (fun e => exp (- a * e) * e) E) / Rsum (map (fun e => exp (- a * e)) E).
