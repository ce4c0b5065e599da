(** * Specification: runs of PSO and CBOMemory over the reals *)
From Coq Require Import List Arith Bool Reals.
From Verif Require Import Scalar Np State Pdyn Exec RVec ConsSpec Cbo CboSpec Memory.
Import ListNotations.
Open Scope R_scope.

(** the draws of the memory noise are finite and have dimension d *)
Definition finite_memory_draws (d : nat) (z2 : nat -> nat -> vec) : Prop := forall i j, exists z, z2 i j = floats z /\ length z = d.

(** [mem_steps k P Q c d ms n ms']: n steps lead from ms to ms'.  P holds of the parameters and the
    state before each step, Q of the state after each step; the draws are finite.  Between the steps
    there may be termination checks, changes of the parameters and resets. *)
Inductive mem_steps (k : mkind) (P : mpar R -> st R vec -> Prop) (Q : mst R vec -> Prop) (c : cfg R vec) (d : nat) (ms : mst R vec) : nat -> mst R vec -> Prop :=
| mss_start : mem_steps k P Q c d ms 0 ms
| mss_step : forall n ms1 p o z2 ms2, mem_steps k P Q c d ms n ms1 -> s_active (m_s ms1) <> [] -> perms_valid o (m_s ms1) ->
    finite_draws d o -> finite_memory_draws d z2 -> P p (m_s ms1) -> mem_step k c p o z2 ms1 = Ok ms2 -> Q ms2 -> mem_steps k P Q c d ms (S n) ms2
| mss_term : forall n ms1 b s', mem_steps k P Q c d ms n ms1 -> terminate c (m_s ms1) = Ok (b, s') ->
    mem_steps k P Q c d ms n (mkmst s' (m_y ms1) (m_v ms1) (m_ev ms1))
| mss_params : forall n ms1 s', mem_steps k P Q c d ms n ms1 -> params_changed (m_s ms1) s' ->
    mem_steps k P Q c d ms n (mkmst s' (m_y ms1) (m_v ms1) (m_ev ms1))
| mss_reset : forall n ms1, mem_steps k P Q c d ms n ms1 -> mem_steps k P Q c d ms n (mkmst (reset (m_s ms1)) (m_y ms1) (m_v ms1) (m_ev ms1)).

(** PSO without noise; the particles accelerate away from the consensus by the factor e per step at least *)
Definition pso_quiet (e lm : R) (p : mpar R) (s : st R vec) : Prop :=
  finite_alpha s /\ exists la dt mm ga, p = mkmpar (Fin lm) (Fin 0) (Fin mm) (Fin ga) /\ parameters la dt 0 s /\
    0 <= la /\ 0 <= mm /\ 0 < mm + ga * dt /\ e <= la * dt * dt / (mm + ga * dt).

(** CBOMemory without noise; a particle moves at most to its consensus point and its memory *)
Definition mem_quiet (p : mpar R) (s : st R vec) : Prop :=
  finite_alpha s /\ exists la dt lm, p_lm p = Fin lm /\ p_sm p = Fin 0 /\ parameters la dt 0 s /\ 0 <= la * dt <= 1 /\ 0 <= lm * dt <= 1.

(** the post-processing changed no particle of run m *)
Definition untouched (m : nat) (ms : mst R vec) : Prop := nth_error (s_x (m_s ms)) m = nth_error (m_ev ms) m.

(** the entries of row m of a are the finite points X *)
Definition points_at (a : arr vec) (m : nat) (X : list (list R)) : Prop := nth_error a m = Some (map floats X).

(** the objective does not fall below its value at x on the ray from g through x, beyond x *)
Definition rising (f : vec -> fl R) (g x : list R) : Prop :=
  forall s, 1 <= s -> exists u w, f (floats x) = Fin u /\ f (floats (vadd g (vscal s (vsub x g)))) = Fin w /\ u <= w.
