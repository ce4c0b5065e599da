(** * Specification of runs with a constraint set *)
From Coq Require Import List Arith Reals.
From Verif Require Import Scalar Np State Pdyn Exec RVec ConsSpec Cbo CboSpec.
Import ListNotations.
Open Scope nat_scope.

(** the particles of run m are finite points of the set C *)
Definition run_in (C : list R -> Prop) (s : st R vec) (m d : nat) : Prop := exists X, ensemble_at s m d X /\ forall p, In p X -> C p.
(** all runs *)
Definition all_in (C : list R -> Prop) (s : st R vec) (d : nat) : Prop := forall m, m < s_M s -> run_in C s m d.
(** post-processing turns every finite point into a finite point of C *)
Definition lands_in (C : list R -> Prop) (d : nat) (pp : vec -> vec) : Prop :=
  forall q, length q = d -> exists p, pp (floats q) = floats p /\ length p = d /\ C p.
(** a particle is a finite point of C *)
Definition point_of (C : list R -> Prop) (d : nat) (v : vec) : Prop := exists p, v = floats p /\ length p = d /\ C p.

(** [history_from c d s0 s log]: as [later], with the points evaluated on the way *)
Inductive history_from (c : cfg R vec) (d : nat) (s0 : st R vec) : st R vec -> list (nat * vec) -> Prop :=
| hf_start : history_from c d s0 s0 []
| hf_step : forall s1 log o s2, history_from c d s0 s1 log -> perms_valid o s1 -> finite_draws d o -> step c o s1 = Ok s2 -> history_from c d s0 s2 (log ++ evaluated s1 s2)
| hf_term : forall s1 log b s2, history_from c d s0 s1 log -> terminate c s1 = Ok (b, s2) -> history_from c d s0 s2 log
| hf_params : forall s1 log s2, history_from c d s0 s1 log -> params_changed s1 s2 -> finite_alpha s2 -> finite_parameters s2 -> history_from c d s0 s2 log
| hf_reset : forall s1 log, history_from c d s0 s1 log -> history_from c d s0 (reset s1) log.
