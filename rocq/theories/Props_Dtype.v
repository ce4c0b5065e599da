(** C99: element types of the ensemble and of alpha *)
From Coq Require Import String List Arith Bool Reals ZArith Lia Lra.
From Verif Require Import Scalar Np State Pdyn Exec TermSpec RVec ConsSpec Consensus PdynFacts Sched SchedFacts Cbo CboFacts ExCbo Memory MemSpec MemRaise ExMemR Dtype DtypeSpec DtypeFacts ExDtype.
Import ListNotations.
Open Scope R_scope.
Close Scope string_scope.
Open Scope list_scope.

(** a number given as alpha is used for every run of a floating-point ensemble *)
Theorem C99_alpha_float : forall M r act, (forall m, In m act -> (m < M)%nat) -> alpha_rows (init_alpha DFloat M (ANum r)) act = Ok (repeat [Fin r] (length act)).
Proof. exact alpha_float. Qed.
Print Assumptions C99_alpha_float.
Example C99_alpha_float_case : alpha_rows (init_alpha DFloat 3 (ANum (1 / 2))) [0; 2]%nat = Ok [[Fin (1 / 2)]; [Fin (1 / 2)]].
Proof. apply C99_alpha_float. intros m [<-|[<-|[]]]; lia. Qed.

(** REFUTED for integer ensembles: an alpha below one becomes zero, *)
Theorem C99_alpha_int_refuted : forall M r act, Rabs r < 1 -> (forall m, In m act -> (m < M)%nat) -> alpha_rows (init_alpha DInt M (ANum r)) act = Ok (repeat [Fin 0] (length act)).
Proof. exact alpha_int_small. Qed.
Print Assumptions C99_alpha_int_refuted.
Example C99_alpha_int_case : alpha_rows (init_alpha DInt 3 (ANum (1 / 2))) [0; 2]%nat = Ok [[Fin 0]; [Fin 0]].
Proof. apply C99_alpha_int_refuted; [apply Rabs_def1; lra|intros m [<-|[<-|[]]]; lia]. Qed.
(** zero it stays under any number of updates of the default schedule, *)
(** in the dynamics that were constructed: *)
Theorem C99_alpha_constructed : forall c x0 ch r sg la dt perm0 names extra save (s : st R vec), Rabs r < 1 ->
  (init_t DInt c x0 ch (Fin r) sg la dt perm0 names extra save = Ok s -> param PAlpha s = repeat (Fin 0) (length x0)) /\
  (init_t DFloat c x0 ch (Fin r) sg la dt perm0 names extra save = Ok s -> param PAlpha s = repeat (Fin r) (length x0)) /\
  (forall t, pso_init_t DInt c x0 ch (Fin r) sg la dt perm0 names extra save = Ok t -> param PAlpha (m_s (t_ms t)) = repeat (Fin 0) (length x0)) /\
  (forall t, pso_init_t DFloat c x0 ch (Fin r) sg la dt perm0 names extra save = Ok t -> param PAlpha (m_s (t_ms t)) = repeat (Fin r) (length x0)).
Proof. exact init_t_alpha. Qed.
Print Assumptions C99_alpha_constructed.
Example C99_alpha_constructed_case : Rabs (1 / 2) < 1 /\ exists s : st R vec, init_t DInt icfg [[[Fin 0]; [Fin 4]]] false (Fin (1 / 2)) (Fin 0) (Fin 1) (Fin (1 / 4)) (fun _ => []) None [] None = Ok s.
Proof. split; [apply Rabs_def1; lra|]. unfold init_t, init. cbv zeta. cbn [mapM take1 nth_error bind]. eauto. Qed.

Theorem C99_alpha_stays_zero : forall n k (s s' : st R vec), param PAlpha s = repeat (Fin 0) k -> times (S n) (multiply_update PAlpha (Fin (21 / 20)) (Fin 100000)) s = Ok s' -> param PAlpha s' = repeat (Fin 0) k.
Proof. exact alpha_stays_zero. Qed.
Print Assumptions C99_alpha_stays_zero.
(** and the consensus point is then the plain mean whatever the energies *)
Theorem C99_alpha_zero_mean : forall es d X, es <> [] -> ensemble (length es) d X -> cc_default (map Fin es) (map floats X) (Fin 0) = [floats (plain_mean d X)].
Proof. exact mean_alpha_zero. Qed.
Print Assumptions C99_alpha_zero_mean.
Example C99_alpha_zero_mean_case : [1; 100] <> [] /\ ensemble (length [1; 100]) 2 [[0; 1]; [4; 3]] /\ plain_mean 2 [[0; 1]; [4; 3]] = [2; 2].
Proof.
  split; [discriminate|]. split; [split; [reflexivity|intros p [<-|[<-|[]]]; reflexivity]|].
  unfold plain_mean. cbn. unfold coord. cbn. unfold Rsum. cbn. f_equal; [|f_equal]; field.
Qed.
(** REFUTED: alpha as numpy scalar, flat array or array with fewer rows than runs fails at the first consensus *)
Theorem C99_numpy_alpha_refuted : forall d M r l act, alpha_rows (init_alpha d M (ANp0 r)) act = Err IndexError /\ alpha_rows (init_alpha d M (ANp1 l)) act = Err IndexError.
Proof. intros. split; [apply alpha_scalar|apply alpha_flat]. Qed.
Print Assumptions C99_numpy_alpha_refuted.
Theorem C99_short_alpha_refuted : forall d M l act, (exists m, In m act /\ (length l <= m)%nat) -> alpha_rows (init_alpha d M (ANp2 l)) act = Err IndexError.
Proof. exact alpha_short. Qed.
Print Assumptions C99_short_alpha_refuted.
Example C99_short_alpha_case : exists m, In m [0; 1]%nat /\ (length [[Fin 10]] <= m)%nat.
Proof. exists 1%nat. split; [right; left; reflexivity|cbn; lia]. Qed.

(** for floating-point ensembles the typed steps are the steps of the other properties *)
Theorem C99_float : forall c, (forall o s, step_t DFloat c o s = step c o s) /\ (forall p o z2 ms, mem_step_t DFloat c p o z2 ms = mem_step CBOMem c p o z2 ms).
Proof. intros c. split; [apply step_float|apply mem_step_float]. Qed.
Print Assumptions C99_float.
Theorem C99_pso_float : forall ppd c p o z2 ms, pso_step_t ppd c p o z2 (mktst DFloat DFloat ms) =
  match mem_step Pso c p o z2 ms with Ok ms' => Ok (mktst DFloat (ppd DFloat) ms') | Err e => Err e end.
Proof. intros. rewrite pso_step_float. destruct (mem_step Pso c p o z2 ms); reflexivity. Qed.
Print Assumptions C99_pso_float.

(** REFUTED for integers: every step of CBO raises, so optimize does in its first iteration *)
Theorem C99_cbo_int_refuted : forall c s log o, exec c s log -> plain c (s_N s) -> perms_valid o s -> step_t DInt c o s = Err TypeError.
Proof. exact cbo_int_step. Qed.
Print Assumptions C99_cbo_int_refuted.
Theorem C99_optimize_int_refuted : forall c s log sched os fuel i b s', exec c s log -> plain c (s_N s) -> perms_valid (os i) s -> terminate c s = Ok (b, s') ->
  optimize_loop c (step_t DInt c) sched os (S fuel) i s = Some (if b then Ok s' else Err TypeError).
Proof. exact cbo_int_optimize. Qed.
Print Assumptions C99_optimize_int_refuted.
Example C99_cbo_int_case : exists s, exec rpso s [] /\ plain rpso (s_N s) /\ perms_valid corc s /\ all_integral (s_x s) /\ exists s', terminate rpso s = Ok (false, s').
Proof. exact int_cbo. Qed.
(** ... and so does CBOMemory *)
Theorem C99_memory_int_refuted : forall c p o z2 ms log, mem_exec CBOMem c ms log -> perms_valid o (m_s ms) -> one_consensus_point c -> s_active (m_s ms) <> [] ->
  length (s_active (m_s ms)) = s_M (m_s ms) -> (c_bsize c = s_N (m_s ms) \/ (c_partial c = false /\ c_bsize c = 1%nat)) -> mem_step_t DInt c p o z2 ms = Err TypeError.
Proof. exact mem_int_step. Qed.
Print Assumptions C99_memory_int_refuted.
Example C99_memory_int_case : exists ms, mem_exec CBOMem rpso ms (mem_evaluated ms) /\ perms_valid corc (m_s ms) /\ one_consensus_point rpso /\ s_active (m_s ms) <> [] /\
  length (s_active (m_s ms)) = s_M (m_s ms) /\ c_bsize rpso = s_N (m_s ms).
Proof. exact int_mem. Qed.

(** REFUTED for PSO: it runs, but velocities and memories are integers in every reachable state, *)
Theorem C99_pso_integers_refuted : forall ppd c t, vector_ops c -> pso_exec_t ppd c DInt t -> all_integral (m_v (t_ms t)) /\ all_integral (m_y (t_ms t)).
Proof. exact pso_int. Qed.
Print Assumptions C99_pso_integers_refuted.
(** the stored velocity is the documented one cut to integers, *)
Theorem C99_pso_velocity_refuted : forall ppd c p o z2 t t' msf, vector_ops c -> pso_exec_t ppd c DInt t -> pso_step_t ppd c p o z2 t = Ok t' ->
  mem_step Pso c p o z2 (t_ms t) = Ok msf -> m_v (t_ms t') = casta DInt (m_v msf).
Proof. exact pso_velocity. Qed.
Print Assumptions C99_pso_velocity_refuted.
(** so that nothing moves while the documented velocities are below one, *)
Theorem C99_pso_frozen_refuted : forall c p o z2 t t' msf d dt, vector_ops c -> pso_exec_t pp_default_dtype c DInt t -> pso_step_t pp_default_dtype c p o z2 t = Ok t' ->
  mem_step Pso c p o z2 (t_ms t) = Ok msf -> all_below_one d (m_v msf) -> all_points d (s_x (m_s (t_ms t))) -> s_dt (m_s (t_ms t)) = Fin dt ->
  s_x (m_s (t_ms t')) = map (map (c_pp c)) (s_x (m_s (t_ms t))).
Proof. exact pso_frozen. Qed.
Print Assumptions C99_pso_frozen_refuted.
Example C99_pso_case : exists t t' msf, vector_ops icfg /\ pso_exec_t pp_default_dtype icfg DInt t /\ pso_step_t pp_default_dtype icfg ipar iorc iz2 t = Ok t' /\
  mem_step Pso icfg ipar iorc iz2 (t_ms t) = Ok msf /\ all_below_one 1 (m_v msf) /\ all_points 1 (s_x (m_s (t_ms t))) /\ s_dt (m_s (t_ms t)) = Fin (1 / 4) /\
  m_v msf = [[[Fin (- 1 / 2)]; [Fin (1 / 2)]]].
Proof. exact int_frozen. Qed.
(** and the remembered point need not have the remembered value: f(y) = 1 is stored as 1/4 *)
Theorem C99_memory_value_refuted : exists t, pso_exec_t pp_default_dtype icfg DInt t /\ m_y (t_ms t) = [[[Fin 0]; [Fin 4]]] /\ s_energy (m_s (t_ms t)) = [[Fin (1 / 4); Fin 25]] /\ c_f icfg [Fin 0] = Fin 1.
Proof. exact int_memory. Qed.
Print Assumptions C99_memory_value_refuted.
