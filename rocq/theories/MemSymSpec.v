(** * Specification: the same sequence of calls on two objects of CBOMemory or PSO *)
From Coq Require Import String List Arith Bool Permutation.
From Verif Require Import Scalar Np State Pdyn Exec Memory MemSpec SimSpec.
Import ListNotations.
Open Scope nat_scope.
Open Scope list_scope.

Section MemSymSpec.
  Context {K V : Type} {O : KOps K}.
  Notation F := (fl K).

  (** what a user can do with a dynamic: make a step with the parameters [p], the random inputs [o] and the second
      draws [z2]; check for termination; assign new values to alpha (all runs), sigma, lamda and dt; reset *)
  Inductive mcall : Type :=
  | McStep (p : mpar K) (o : orc V) (z2 : nat -> nat -> V)
  | McTerminate
  | McParameters (alpha sigma lamda dt : F)
  | McReset.

  Definition on_state (ms : mst K V) (s : st K V) : mst K V := mkmst s (m_y ms) (m_v ms) (m_ev ms).
  Definition mem_do (k : mkind) (c : cfg K V) (a : mcall) (ms : mst K V) : res (mst K V) :=
    match a with
    | McStep p o z2 => match s_active (m_s ms) with [] => Ok ms (* optimize has ended *) | _ :: _ => mem_step k c p o z2 ms end
    | McTerminate => r <- terminate c (m_s ms) ;; Ok (on_state ms (snd r))
    | McParameters al sg la dt => Ok (on_state ms (set_alpha (repeat [al] (s_M (m_s ms))) (set_sigma sg (set_lamda la (set_dt dt (m_s ms))))))
    | McReset => Ok (on_state ms (reset (m_s ms)))
    end.
  Fixpoint mem_play (k : mkind) (c : cfg K V) (l : list mcall) (ms : mst K V) : res (mst K V) :=
    match l with [] => Ok ms | a :: l' => ms1 <- mem_do k c a ms ;; mem_play k c l' ms1 end.

  (** a whole session: construction, then the calls *)
  Definition mem_session (k : mkind) (c : cfg K V) (x0 : arr V) (checked : bool) (alpha sigma lamda dt : F) (perm0 : nat -> list nat)
      (names : option (list string)) (extra : list trk) (save : option nat) (l : list mcall) : res (mst K V) :=
    ms <- mem_init c x0 checked alpha sigma lamda dt perm0 names extra save ;; mem_play k c l ms.

  (** the draws of a call mapped by [chi] *)
  Definition map_draws (chi : V -> V) (a : mcall) : mcall :=
    match a with
    | McStep p o z2 => McStep p {| o_z := fun k n => chi (o_z o k n); o_perm := o_perm o |} (fun k n => chi (z2 k n))
    | _ => a
    end.

  (** [b] is [a] with points mapped by phi, drifts and velocities by lin, energies by psi; everything else agrees *)
  Definition mem_mapped (PV : V -> Prop) (phi lin : V -> V) (psi : F -> F) (a b : mst K V) : Prop :=
    state_related (fun v v' => PV v /\ v' = phi v) (fun v v' => PV v /\ v' = lin v) (fun e e' => e' = psi e) eq eq (m_s a) (m_s b) /\
    m_y b = map (map phi) (m_y a) /\ m_v b = map (map lin) (m_v a) /\ m_ev b = map (map phi) (m_ev a).
End MemSymSpec.

From Coq Require Import Reals.
From Verif Require Import RVec ConsSpec Cbo CboSpec TwinSpec.

(** [v] is a point of R^d *)
Definition real_point (d : nat) (v : vec) : Prop := exists p, v = floats p /\ length p = d.
Definition finite_scalar (a : fl R) : Prop := exists r, a = Fin r.
Definition time_step (a : fl R) : Prop := exists r, a = Fin r /\ (0 <= r)%R.

(** The calls use finite parameters and draws from R^d, permutations of the particles and, for PSO, a nonzero
    m + gamma*dt; [dt] is the time step before the calls. *)
Fixpoint finite_calls (k : mkind) (d M N : nat) (dt : fl R) (l : list (mcall (K := R) (V := vec))) : Prop :=
  match l with
  | [] => True
  | McStep p o z2 :: l' =>
      (exists lm sm mm ga, p = mkmpar (Fin lm) (Fin sm) (Fin mm) (Fin ga) /\ (k = Pso -> forall t, dt = Fin t -> (mm + ga * t <> 0)%R)) /\
      (forall i n, real_point d (o_z o i n)) /\ (forall i n, real_point d (z2 i n)) /\
      (forall m, m < M -> Permutation (o_perm o m) (seq 0 N)) /\ finite_calls k d M N dt l'
  | McParameters al sg la dt' :: l' => (finite_scalar al /\ finite_scalar sg /\ finite_scalar la /\ time_step dt') /\ finite_calls k d M N dt' l'
  | _ :: l' => finite_calls k d M N dt l'
  end.

(** A correction maps every energy difference to a finite factor. *)
Definition finite_corr (co : corr R) : Prop :=
  match co with NoCorr => True | Heavi fac => forall z, z <> NaN -> finite_scalar (fac z) end.

(** the constructor arguments are sensible: an (M,N) array of points of R^d with N >= 1, finite parameters, ... *)
Definition sensible (d b : nat) (x0 : arr vec) (alpha sigma lamda dt : fl R) (perm0 : nat -> list nat) (save : option nat) : Prop :=
  is_array (length x0) (shape1 x0) x0 /\ 1 <= shape1 x0 /\ 1 <= b <= shape1 x0 /\
  (forall m, m < length x0 -> Permutation (perm0 m) (seq 0 (shape1 x0))) /\ save <> Some 0 /\
  (forall row v, In row x0 -> In v row -> real_point d v) /\
  finite_scalar alpha /\ finite_scalar sigma /\ finite_scalar lamda /\ time_step dt.
