(** * Specification: the same sequence of calls in other units of length and energy *)
From Coq Require Import String List Arith Bool Reals.
From Verif Require Import Scalar Np State Pdyn Exec RVec ConsSpec Cbo CboSpec UnitsSpec Memory MemSymSpec SimSpec SessSpec.
Import ListNotations.
Open Scope R_scope.

(** Lengths are multiplied by [len] and energies by [en]; alpha is an inverse energy. *)
Definition scaled (len en : R) (d : nat) (a b : st R vec) : Prop :=
  state_related (fun v v' => real_point d v /\ v' = map (times_by len) v) (fun v v' => real_point d v /\ v' = map (times_by len) v)
    (fun e e' => e' = times_by en e) (fun a a' => a' = times_by (/ en) a) (fun u u' => u' = times_by len u) a b.
(** ... also for the memory: best positions, velocities and positions at the last evaluation *)
Definition scaled_memory (len en : R) (d : nat) (a b : mst R vec) : Prop :=
  scaled len en d (m_s a) (m_s b) /\ m_y b = map (map (map (times_by len))) (m_y a) /\ m_v b = map (map (map (times_by len))) (m_v a) /\
  m_ev b = map (map (map (times_by len))) (m_ev a).

(** the draws are pure numbers, except that constant noise adds them to the points *)
Definition scale_draw (k : noise_model) (len : R) (z : vec) : vec := match k with NConst => map (times_by len) z | _ => z end.
Definition scale_draws (k : noise_model) (len : R) (o : orc vec) : orc vec := {| o_z := fun i n => scale_draw k len (o_z o i n); o_perm := o_perm o |}.
Definition scale_call (k : noise_model) (len en : R) (a : call (K := R) (V := vec)) : call :=
  match a with
  | CaStep o => CaStep (scale_draws k len o)
  | CaTerminate => CaTerminate
  | CaParameters al sg la dt => CaParameters (times_by (/ en) al) sg la dt
  | CaReset => CaReset
  end.
Definition scale_mcall (k : noise_model) (len en : R) (a : mcall (K := R) (V := vec)) : mcall :=
  match a with
  | McStep p o z2 => McStep p (scale_draws k len o) (fun i n => scale_draw k len (z2 i n))
  | McTerminate => McTerminate
  | McParameters al sg la dt => McParameters (times_by (/ en) al) sg la dt
  | McReset => McReset
  end.
(** tolerances *)
Definition scale_crit (len en : R) (q : crit R vec) : crit R vec :=
  match q with CEnergyTol t => CEnergyTol (times_by en t) | CDiffTol t => CDiffTol (times_by len t) | _ => q end.
(** the correction as a function of an energy difference *)
Definition scale_corr (en : R) (co co' : corr R) : Prop :=
  match co, co' with
  | NoCorr, NoCorr => True
  | Heavi fac, Heavi fac' => forall z, z <> NaN -> fac' (times_by en z) = fac z
  | _, _ => False
  end.
