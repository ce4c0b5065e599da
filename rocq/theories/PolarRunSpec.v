(** * Specification of PolarCBO runs *)
From Coq Require Import List Arith Bool Reals.
From Verif Require Import Scalar Np State Pdyn Exec TwinSpec RVec ConsSpec Cbo CboSpec PolarSpec Polar PolarRun.
Import ListNotations.
Open Scope nat_scope.

(** a row of consensus points as it is broadcast against n particles *)
Definition spread {V} (n : nat) (row : list V) : list V := match row with [v] => repeat v n | _ => row end.

(** [s'] is [s] with all points mapped by phi and all energies by psi; the consensus points are
    compared per particle of a batch of n *)
Record same_run {K V} {O : KOps K} (phi : V -> V) (psi : fl K -> fl K) (n : nat) (s s' : State.st K V) : Prop := {
  sr_M : s_M s' = s_M s;
  sr_N : s_N s' = s_N s;
  sr_x : s_x s' = map (map phi) (s_x s);
  sr_energy : s_energy s' = map (map psi) (s_energy s);
  sr_be : s_be s' = map psi (s_be s);
  sr_bp : s_bp s' = map phi (s_bp s);
  sr_fmin : s_fmin s' = map psi (s_fmin s);
  sr_udiff : s_udiff s' = s_udiff s;
  sr_nfe : s_nfe s' = s_nfe s;
  sr_cons : option_map (map (spread n)) (s_cons s') = option_map (map (fun row => map phi (spread n row))) (s_cons s);
  sr_ind : s_ind s' = s_ind s;
  sr_active : s_active s' = s_active s;
  sr_alpha : s_alpha s' = s_alpha s;
  sr_par : s_sigma s' = s_sigma s /\ s_lamda s' = s_lamda s /\ s_dt s' = s_dt s;
  sr_time : s_t s' = s_t s /\ s_it s' = s_it s }.

(** the batches fit: a consensus point for every updated particle *)
Definition batches_fit (b : nat) (partial : bool) (s : State.st R vec) : Prop := partial = true \/ b = s_N s.

(** the mode in which the kernel is scaled by alpha *)
Definition positive_mode (md : kmode) : bool := match md with MAlpha => true | MConst => false end.

(** finite ensembles, finite parameters, positive alpha if the kernel is scaled by it, batches that fit *)
Definition polar_state (d : nat) (pos : bool) (b : nat) (partial : bool) (s : State.st R vec) : Prop :=
  (finite_alpha s /\ finite_parameters s /\ batches_fit b partial s /\
   (pos = true -> forall m a, nth_error (s_alpha s) m = Some [Fin a] -> (0 < a)%R)) /\
  (forall row v, In row (s_x s) -> In v row -> exists p, v = floats p /\ length p = d).
