(** * C101: optimize and its arguments *)
From Coq Require Import List Arith Bool Reals.
From Verif Require Import Scalar Np State Pdyn Exec TermSpec ExR Sched Memory ExZ ExMem Optimize OptimizeSpec OptimizeFacts ExOptimize OptStream ExOptStream.
Import ListNotations.
Open Scope R_scope.

(** C101. What optimize returns: one point per run; unless everything computed for the run is +inf, a point evaluated for this run such that no point
    evaluated for this run, in this call or before, has a smaller value.  The state left is reachable, so all properties of reachable states hold for it. *)
Theorem C101_returns_best : forall V (c : cfg R V) cbx a pi os fuel (s s' : st R V) bp log, no_nan c -> standard a -> exec c s log -> in_range os s ->
  optimize c (step c) cbx pi a os fuel s = Some (Ok (bp, s')) -> exists log', exec c s' (log ++ log') /\ length bp = s_M s /\
    forall m v, nth_error bp m = Some v -> (forall w, In (m, w) (log ++ log') -> c_f c w = PInf) \/
      (In (m, v) (log ++ log') /\ forall w, In (m, w) (log ++ log') -> fleb (c_f c v) (c_f c w) = true).
Proof. exact @optimize_returns. Qed.
Print Assumptions C101_returns_best.

(** C101. The print interval has no effect as long as it is not 0. *)
Theorem C101_print_int : forall V (c : cfg R V) stepf cbx pi a os fuel (s : st R V), (1 <= match pi with Some p => p | None => s_save s end)%nat ->
  optimize c stepf cbx pi a os fuel s = match optimize_loop c stepf (resolve cbx a) os fuel 0 s with None => None | Some r => Some (s' <- r ;; Ok (s_bp s', s')) end.
Proof. exact @optimize_is_loop. Qed.
Print Assumptions C101_print_int.
(** ... print_int = 0 ("never print") fails after the first step, whatever the verbosity. *)
Theorem C101_print_zero_refuted : forall V (c : cfg R V) stepf cbx a os fuel (s s1 s2 s3 : st R V), terminate c s = Ok (false, s1) -> stepf (os 0%nat) s1 = Ok s2 -> resolve cbx a s2 = Ok s3 ->
  optimize c stepf cbx (Some 0%nat) a os (S fuel) s = Some (Err ZeroDivision).
Proof. exact @print_zero. Qed.
Print Assumptions C101_print_zero_refuted.

(** C101. The default schedule over a whole call: n steps multiply every alpha by 1.05^n, capped at 1e5. *)
Theorem C101_default_alpha : forall V (c : cfg R V) pi os fuel (s s' : st R V) bp l, alphas s l -> optimize c (step c) true pi SDefault os fuel s = Some (Ok (bp, s')) ->
  (s_it s <= s_it s')%nat /\ alphas s' (map (scheduled (s_it s' - s_it s)) l).
Proof. exact @optimize_default. Qed.
Print Assumptions C101_default_alpha.
Example C101_default_case : exists s s', exec (ocfg (Some 3%nat)) s [] /\ optimize (ocfg (Some 3%nat)) (step (ocfg (Some 3%nat))) true None SDefault (fun _ => rorc) 3 s = Some (Ok (s_bp s', s')) /\
  s_it s' = 3%nat /\ alphas s' [(21 / 20) ^ 3; (21 / 20) ^ 3].
Proof. exact odefault. Qed.
(** ... from alpha = 1 the cap is in force at the end of the run iff the run has at least 236 steps. *)
Theorem C101_default_cap : forall V (c : cfg R V) os n (s : st R V) log fuel bp s', exec c s log -> (1 <= s_M s)%nat -> plain c (s_N s) -> in_range os s -> c_crit c = init_term None (Some n) ->
  s_it s = 0%nat -> alphas s (repeat 1 (s_M s)) -> optimize c (step c) true None SDefault os fuel s = Some (Ok (bp, s')) ->
  alphas s' (repeat 100000 (s_M s)) <-> (236 <= n)%nat.
Proof. exact @default_run_alpha. Qed.
Print Assumptions C101_default_cap.
(** ... sched = None leaves alpha alone. *)
Theorem C101_none_alpha : forall V (c : cfg R V) cbx pi os fuel (s s' : st R V) bp, optimize c (step c) cbx pi SNone os fuel s = Some (Ok (bp, s')) -> s_alpha s' = s_alpha s.
Proof. exact @optimize_none. Qed.
Print Assumptions C101_none_alpha.
(** ... 'effective': after at least one step every run has one alpha between 1.5 and 1e5, whatever it was before. *)
Theorem C101_effective_alpha : forall V (c : cfg R V) cbx os fuel (s s' : st R V) log pi bp, exec c s log -> plain c (s_N s) -> in_range os s -> (1 <= match pi with Some p => p | None => s_save s end)%nat ->
  optimize c (step c) cbx pi SEffective os fuel s = Some (Ok (bp, s')) -> (s_it s < s_it s')%nat -> length (s_alpha s') = s_M s /\ Forall (ess_row (3 / 2)) (s_alpha s').
Proof. exact @optimize_effective. Qed.
Print Assumptions C101_effective_alpha.
Theorem C101_effective_total : forall V (c : cfg R V) cbx os n fuel (s : st R V) log pi, exec c s log -> plain c (s_N s) -> in_range os s -> (1 <= match pi with Some p => p | None => s_save s end)%nat ->
  Forall builtin (c_crit c) -> In (CMaxIt (Some n)) (c_crit c) -> (n - s_it s <= fuel)%nat -> exists s', optimize c (step c) cbx pi SEffective os fuel s = Some (Ok (s_bp s', s')).
Proof. exact @optimize_effective_total. Qed.
Print Assumptions C101_effective_total.
Example C101_effective_case : exists s s', exec (ocfg (Some 3%nat)) s [] /\ optimize (ocfg (Some 3%nat)) (step (ocfg (Some 3%nat))) true (Some 2%nat) SEffective (fun _ => rorc) 3 s = Some (Ok (s_bp s', s')).
Proof. exact oeffective. Qed.

(** C101. Calls accumulate: a user calling optimize and reset in any order, n steps altogether, has 1.05^n times the first alpha (capped); reset does not
    restore alpha, so a repeated run is not the same run. *)
Theorem C101_calls_accumulate : forall V (c : cfg R V) n (s s' : st R V) l, alphas s l -> calls c n s s' -> alphas s' (map (scheduled n) l).
Proof. exact @calls_alpha. Qed.
Print Assumptions C101_calls_accumulate.
Theorem C101_reset_restores_refuted : exists s s2, exec (ocfg (Some 3%nat)) s [] /\ alphas s [1; 1] /\ calls (ocfg (Some 3%nat)) 6 s s2 /\ s_it s2 = 3%nat /\ alphas s2 [(21 / 20) ^ 6; (21 / 20) ^ 6].
Proof. exact otwice. Qed.
Print Assumptions C101_reset_restores_refuted.

(** C101. Without criteria, max_it decides: with max_it = n the call performs exactly n - it steps, with max_it = None it does not return. *)
Theorem C101_default_termination : forall V (c : cfg R V) cbx os n (s : st R V) log fuel, exec c s log -> (1 <= s_M s)%nat -> plain c (s_N s) -> in_range os s -> c_crit c = init_term None (Some n) ->
  (n - s_it s <= fuel)%nat -> exists s', optimize c (step c) cbx None SDefault os fuel s = Some (Ok (s_bp s', s')) /\ s_it s' = max n (s_it s).
Proof. exact @default_term. Qed.
Print Assumptions C101_default_termination.
Theorem C101_no_max_it : forall V (c : cfg R V) cbx os (s : st R V) log fuel, exec c s log -> (1 <= s_M s)%nat -> plain c (s_N s) -> in_range os s -> c_crit c = init_term None None ->
  optimize c (step c) cbx None SDefault os fuel s = None.
Proof. exact @no_term. Qed.
Print Assumptions C101_no_max_it.
Example C101_termination_case : forall n, exists s, exec (ocfg n) s [] /\ (1 <= s_M s)%nat /\ s_M s = 2%nat /\ plain (ocfg n) (s_N s) /\ in_range (fun _ => rorc) s /\ s_it s = 0%nat /\ alphas s (repeat 1 (s_M s)).
Proof. exact ocase. Qed.

(** C101. An unknown schedule is not rejected at the call: it fails only after a complete step ... *)
Theorem C101_unknown_schedule : forall V (c : cfg R V) stepf cbx pi os fuel (s s1 s2 : st R V), terminate c s = Ok (false, s1) -> stepf (os 0%nat) s1 = Ok s2 ->
  optimize c stepf cbx pi SOther os (S fuel) s = Some (Err TypeError).
Proof. exact @other_fails. Qed.
Print Assumptions C101_unknown_schedule.
Example C101_entered_case : exists s s1 s2, exec (ocfg (Some 3%nat)) s [] /\ terminate (ocfg (Some 3%nat)) s = Ok (false, s1) /\ step (ocfg (Some 3%nat)) rorc s1 = Ok s2.
Proof. exact oenter. Qed.
(** ... and goes unnoticed if the dynamic has already terminated. *)
Theorem C101_unknown_rejected_refuted : forall V (c : cfg R V) stepf cbx pi a os fuel (s s1 : st R V), terminate c s = Ok (true, s1) ->
  optimize c stepf cbx pi a os fuel s = Some (Ok (s_bp s, s1)).
Proof. exact @finished_any. Qed.
Print Assumptions C101_unknown_rejected_refuted.
Example C101_finished_case : exists s s1, exec (ocfg (Some 0%nat)) s [] /\ terminate (ocfg (Some 0%nat)) s = Ok (true, s1).
Proof. exact ofinished. Qed.

(** C101. CBS rejects schedules which CBO accepts: 'effective' and bare update objects. *)
Theorem C101_cbs_same_schedules_refuted : forall V (c : cfg R V) stepf os fuel (s : st R V) u, cbs_optimize c stepf SEffective os fuel s = Some (Err RuntimeErr) /\
  cbs_optimize c stepf (SUpdate u false) os fuel s = Some (Err RuntimeErr) /\ cbs_optimize c stepf SOther os fuel s = Some (Err RuntimeErr).
Proof. exact @cbs_rejects. Qed.
Print Assumptions C101_cbs_same_schedules_refuted.
(** ... and its default schedule does nothing, unlike the one of CBO. *)
Theorem C101_cbs_default : forall V (c : cfg R V) stepf os fuel (s : st R V) u, cbs_optimize c stepf SDefault os fuel s = cbs_optimize c stepf SNone os fuel s /\
  cbs_optimize c stepf (SUpdate u true) os fuel s = optimize_loop c stepf u os fuel 0 s.
Proof. exact @cbs_accepts. Qed.
Print Assumptions C101_cbs_default.

(** C101. Every step uses random inputs of its own, in their order: after the first step the loop goes on as a loop that is given the remaining inputs. *)
Theorem C101_fresh_draws : forall K V (O : KOps K) (c : cfg K V) stepf sched os fuel s s1 s2 s3, terminate c s = Ok (false, s1) -> stepf (os 0%nat) s1 = Ok s2 -> sched s2 = Ok s3 ->
  optimize_loop c stepf sched os (S fuel) 0 s = optimize_loop c stepf sched (fun j => os (S j)) fuel 0 s3.
Proof. exact @loop_draws. Qed.
Print Assumptions C101_fresh_draws.
Theorem C101_memory_fresh_draws : forall K V (O : KOps K) k (c : cfg K V) p os zs fuel ms s1 ms2, terminate c (m_s ms) = Ok (false, s1) ->
  mem_step k c p (os 0%nat) (zs 0%nat) (mkmst s1 (m_y ms) (m_v ms) (m_ev ms)) = Ok ms2 ->
  mem_optimize k c p os zs (S fuel) 0 ms = mem_optimize k c p (fun j => os (S j)) (fun j => zs (S j)) fuel 0 ms2.
Proof. exact @mem_draws. Qed.
Print Assumptions C101_memory_fresh_draws.
Example C101_memory_entered_case : forall k, exists ms s1 ms2, mem_init mc3 [[0%Z; 3%Z]; [4%Z; 1%Z]] false (Fin 1%Z) (Fin 1%Z) (Fin 1%Z) (Fin 1%Z) (fun _ => [0; 1]%nat) None [] None = Ok ms /\
  terminate mc3 (m_s ms) = Ok (false, s1) /\ mem_step k mc3 mpar0 (zorc 1 [0; 1]%nat) (fun _ _ => 2%Z) (mkmst s1 (m_y ms) (m_v ms) (m_ev ms)) = Ok ms2.
Proof. exact mem_enters. Qed.
