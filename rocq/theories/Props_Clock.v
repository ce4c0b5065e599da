(** * C95: the clock of a run with rounding errors *)
From Coq Require Import List Arith Bool Reals ZArith Lia Lra.
From Flocq Require Import Core.
From Verif Require Import Scalar Np State Pdyn Exec TermSpec RoundSpec ExRound ClockSpec ClockFacts ExR ExClock.
Import ListNotations.
Open Scope R_scope.

(** C95. In any arithmetic, a run whose only criterion is max_time = T performs exactly n steps when n is the first number of additions of dt to t which is not below T,
    and its time is then that sum. *)
Theorem C95_steps : forall K V (O : KOps K) (c : cfg K V) sched os T d fuel i s log t n, exec c s log -> (1 <= s_M s)%nat -> plain c (s_N s) -> param_sched sched -> total_sched sched -> leaves_dt sched -> in_range os s ->
  c_crit c = [CMaxTime (Fin T)] -> s_t s = Fin t -> s_dt s = Fin d -> kltb (ticks t d n) T = false -> (forall k, (k < n)%nat -> kltb (ticks t d k) T = true) ->
  ((fuel < n)%nat -> optimize_loop c (step c) sched os fuel i s = None) /\
  ((n <= fuel)%nat -> exists s', optimize_loop c (step c) sched os fuel i s = Some (Ok s') /\ s_it s' = (s_it s + n)%nat /\ s_t s' = Fin (ticks t d n)).
Proof. exact (@clock_exact). Qed.
Print Assumptions C95_steps.

(** With relative rounding error u (and eta below the normal range), the number of steps differs by at most one from n0, the least integer at or above T/dt, as long as
    u (n0+1)(n0+2) <= 1/8. *)
Theorem C95_off_by_one : forall V rnd u eta, (forall x, Rabs (rnd x - x) <= u * Rabs x + eta) -> 0 <= u -> 0 <= eta ->
  let O := KOps_rounded rnd in forall (c : cfg R V) sched os i s log d T n0, exec c s log -> (1 <= s_M s)%nat -> plain c (s_N s) -> param_sched sched -> total_sched sched -> leaves_dt sched -> in_range os s ->
  c_crit c = [CMaxTime (Fin T)] -> s_t s = Fin 0 -> s_dt s = Fin d -> 0 < d -> 0 < T -> T <= INR n0 * d -> (INR n0 - 1) * d < T ->
  u * INR (S n0) * INR (S (S n0)) <= / 8 -> INR (S n0) * eta <= d / 8 ->
  exists n, (n0 <= S n)%nat /\ (n <= S n0)%nat /\ forall fuel, ((fuel < n)%nat -> optimize_loop c (step c) sched os fuel i s = None) /\
    ((n <= fuel)%nat -> exists s', optimize_loop c (step c) sched os fuel i s = Some (Ok s') /\ s_it s' = (s_it s + n)%nat).
Proof. exact clock_rounded_run. Qed.
Print Assumptions C95_off_by_one.

(** One step too many does happen: in double precision dt = 0.1 and max_time = 1 take 11 steps, although 10 dt >= 1. *)
Theorem C95_tenth_refuted : forall V, let O := KOps_rounded b64 in forall (c : cfg R V) sched os i s log, exec c s log -> (1 <= s_M s)%nat -> plain c (s_N s) -> param_sched sched -> total_sched sched -> leaves_dt sched -> in_range os s ->
  c_crit c = [CMaxTime (Fin 1)] -> s_t s = Fin 0 -> s_dt s = Fin (b64 (/ 10)) ->
  1 <= 10 * b64 (/ 10) /\ (forall fuel, (fuel < 11)%nat -> optimize_loop c (step c) sched os fuel i s = None) /\
  forall fuel, (11 <= fuel)%nat -> exists s', optimize_loop c (step c) sched os fuel i s = Some (Ok s') /\ s_it s' = (s_it s + 11)%nat.
Proof. exact eleven_steps. Qed.
Print Assumptions C95_tenth_refuted.

(** And the bound on the number of steps is needed: with dt = 2^j and max_time above 2^(j+53) the time stops growing and the run never ends. *)
Theorem C95_stalls_refuted : forall V, let O := KOps_rounded b64 in forall (c : cfg R V) sched os i s log j T, exec c s log -> (1 <= s_M s)%nat -> plain c (s_N s) -> param_sched sched -> total_sched sched -> leaves_dt sched -> in_range os s ->
  c_crit c = [CMaxTime (Fin T)] -> s_t s = Fin 0 -> s_dt s = Fin (bpow radix2 j) -> (-1074 <= j)%Z -> bpow radix2 (j + 53) < T ->
  forall fuel, optimize_loop c (step c) sched os fuel i s = None.
Proof. exact stalls. Qed.
Print Assumptions C95_stalls_refuted.

(** A dynamic in double precision meets the hypotheses, for all T and dt, and double precision the error bound. *)
Example C95_applies : let O := KOps_rounded b64 in forall T d, c_crit (bcfg T) = [CMaxTime (Fin T)] /\ exists s, exec (bcfg T) s [] /\ (1 <= s_M s)%nat /\ plain (bcfg T) (s_N s) /\
  param_sched bsched /\ total_sched bsched /\ leaves_dt bsched /\ in_range (fun _ => rorc) s /\ s_t s = Fin 0 /\ s_dt s = Fin d.
Proof. exact binit_ok. Qed.
Example C95_double : forall x, Rabs (b64 x - x) <= u64 * Rabs x + eta64.
Proof. exact b64_err. Qed.
