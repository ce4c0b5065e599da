(** * Specification: endless runs *)
From Coq Require Import List Arith Bool Reals.
From Verif Require Import Scalar Np State Pdyn Exec RVec ConsSpec Cbo CboSpec MomentSpec MsSpec.
Import ListNotations.
Open Scope R_scope.

(** [run 0], [run 1], ... are the states after 0, 1, ... steps; run m is active in each step, the draws are finite and
    between the steps there may be a termination check and a change of alpha *)
Definition endless (c : cfg R vec) (m d : nat) (run : nat -> st R vec) : Prop := forall n, exists s1 o,
  between c (run n) s1 /\ In m (s_active s1) /\ perms_valid o s1 /\ finite_draws d o /\ step c o s1 = Ok (run (S n)).
