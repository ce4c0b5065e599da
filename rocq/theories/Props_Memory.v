(** * C40 - C44: CBOMemory and PSO *)
From Coq Require Import List Arith Bool Reals Lra Lia ZArith Permutation.
From Verif Require Import Scalar Np State Pdyn Exec RVec RVecFacts ConsSpec Cbo CboSpec Script ExCbo ExZ Memory MemSpec MemFacts3 MemRaise MemMove MemReal ExMem ExMemR.
Import ListNotations.
Open Scope nat_scope.
Open Scope list_scope.

(** C40. In every execution energy[m,n] is the objective at the memory y[m,n], the memory is one of the
    points particle n of run m was evaluated at, and none of them is better. *)
Theorem C40_memory_best : forall K V (O : KOps K) (OO : KOrd K) k (c : cfg K V) ms log m n, no_nan c -> mem_exec k c ms log -> exact_log c log ->
  m < s_M (m_s ms) -> n < s_N (m_s ms) ->
  exists y, cell (m_y ms) m n = Some y /\ cell (s_energy (m_s ms)) m n = Some (c_f c y) /\
    In (m, n, y) log /\ forall x, In (m, n, x) log -> fleb (c_f c y) (c_f c x) = true.
Proof. intros K V O OO. exact memory_best. Qed.
Print Assumptions C40_memory_best.

(** C40. A step never increases an energy. *)
Theorem C40_monotone : forall K V (O : KOps K) (OO : KOrd K) k (c : cfg K V) p (o : orc V) z2 ms log ms' m n e, no_nan c -> mem_exec k c ms log ->
  perms_valid o (m_s ms) -> s_active (m_s ms) <> [] -> mem_step k c p o z2 ms = Ok ms' ->
  exact_log c (log ++ mem_evaluated ms') ->
  cell (s_energy (m_s ms)) m n = Some e ->
  exists e', cell (s_energy (m_s ms')) m n = Some e' /\ fleb e' e = true.
Proof. intros K V O OO. exact memory_monotone. Qed.
Print Assumptions C40_monotone.

(** best_energy of a run is the minimum over everything its particles were evaluated at. *)
Theorem C40_best_energy : forall K V (O : KOps K) (OO : KOrd K) k (c : cfg K V) p (o : orc V) z2 ms log ms' m b, no_nan c -> mem_exec k c ms log ->
  perms_valid o (m_s ms) -> s_active (m_s ms) <> [] -> mem_step k c p o z2 ms = Ok ms' ->
  exact_log c (log ++ mem_evaluated ms') -> nth_error (s_be (m_s ms')) m = Some b ->
  (b = PInf \/ exists n x, In (m, n, x) (log ++ mem_evaluated ms') /\ b = c_f c x) /\
  forall n x, In (m, n, x) (log ++ mem_evaluated ms') -> fleb b (c_f c x) = true.
Proof. intros K V O OO. exact memory_best_energy. Qed.
Print Assumptions C40_best_energy.

Example C40_case : exists ms log, mem_exec CBOMem zcm ms log /\ no_nan zcm /\ exact_log zcm log /\ s_M (m_s ms) = 2 /\ s_N (m_s ms) = 2 /\
  s_active (m_s ms) = [0; 1] /\ m_y ms = [[27; -12]; [3; 2]]%Z /\ length log = 12.
Proof.
  destruct zmem_state as (ms & log & H & H1 & H2 & H3 & H4 & H5 & H6). exists ms, log. split; auto. split; [apply sq_no_nan|].
  split; [apply z_exact|]. auto.
Qed.

(** C41. The first step pairs the energy of the memory with the moved position ... *)
Theorem C41_first_step : forall K V (O : KOps K) (OO : KOrd K) (c : cfg K V) p (o : orc V) z2 ms log ms' m, mem_exec CBOMem c ms log -> perms_valid o (m_s ms) ->
  s_active (m_s ms) <> [] -> mem_step CBOMem c p o z2 ms = Ok ms' -> m < s_M (m_s ms) ->
  nth_error (s_be (m_s ms)) m = Some PInf ->
  (forall n e, cell (s_energy (m_s ms')) m n = Some e -> is_nan e = false) ->
  (exists n e, cell (s_energy (m_s ms')) m n = Some e /\ fltb e PInf = true) ->
  exists n e x, cell (s_energy (m_s ms')) m n = Some e /\
    (forall n' e', cell (s_energy (m_s ms')) m n' = Some e' -> fleb e e' = true) /\
    nth_error (s_be (m_s ms')) m = Some e /\ nth_error (s_bp (m_s ms')) m = Some x /\
    cell (s_x (m_s ms')) m n = Some x.
Proof. intros K V O OO. exact (first_best CBOMem). Qed.
Print Assumptions C41_first_step.

(** ... so optimize can return a particle whose objective value exceeds best_energy by any amount. *)
Theorem C41_best_particle_refuted : forall B : positive, exists (c : cfg Z Z) p os zs ms ms' x, no_nan c /\ one_consensus_point c /\ mem_constructed c ms /\
  (forall j s, s_N s = s_N (m_s ms) -> perms_valid (os j) (s : st Z Z)) /\
  mem_optimize CBOMem c p os zs 5 0 ms = Some (Ok ms') /\ s_it (m_s ms') = 1 /\
  s_be (m_s ms') = [Fin 0%Z] /\ s_bp (m_s ms') = [x] /\ c_f c x = Fin (Z.pos B).
Proof. exact memory_mismatch. Qed.
Print Assumptions C41_best_particle_refuted.

(** C42. PSO pairs the energy after the move with the position before it ... *)
Theorem C42_first_step : forall K V (O : KOps K) (OO : KOrd K) (c : cfg K V) p (o : orc V) z2 ms log ms' m, mem_exec Pso c ms log -> perms_valid o (m_s ms) ->
  s_active (m_s ms) <> [] -> mem_step Pso c p o z2 ms = Ok ms' -> m < s_M (m_s ms) ->
  nth_error (s_be (m_s ms)) m = Some PInf ->
  (forall n e, cell (s_energy (m_s ms')) m n = Some e -> is_nan e = false) ->
  (exists n e, cell (s_energy (m_s ms')) m n = Some e /\ fltb e PInf = true) ->
  exists n e x, cell (s_energy (m_s ms')) m n = Some e /\
    (forall n' e', cell (s_energy (m_s ms')) m n' = Some e' -> fleb e e' = true) /\
    nth_error (s_be (m_s ms')) m = Some e /\ nth_error (s_bp (m_s ms')) m = Some x /\
    cell (s_x (m_s ms)) m n = Some x.
Proof. intros K V O OO. exact (first_best Pso). Qed.
Print Assumptions C42_first_step.

Theorem C42_best_particle_refuted : forall B : positive, exists (c : cfg Z Z) p os zs ms ms' x, no_nan c /\ one_consensus_point c /\ mem_constructed c ms /\
  (forall j s, s_N s = s_N (m_s ms) -> perms_valid (os j) (s : st Z Z)) /\
  mem_optimize Pso c p os zs 5 0 ms = Some (Ok ms') /\ s_it (m_s ms') = 1 /\
  s_be (m_s ms') = [Fin 0%Z] /\ s_bp (m_s ms') = [x] /\ c_f c x = Fin (Z.pos B).
Proof. exact pso_mismatch. Qed.
Print Assumptions C42_best_particle_refuted.

(** C44. With some but not all runs active, or a partially updated batch smaller than N, the step raises. *)
Theorem C44_raises : forall K V (O : KOps K) k (c : cfg K V) p (o : orc V) z2 ms log, mem_exec k c ms log -> perms_valid o (m_s ms) ->
  s_active (m_s ms) <> [] ->
  length (s_active (m_s ms)) < s_M (m_s ms) \/ (c_bsize c < s_N (m_s ms) /\ c_partial c = true) ->
  mem_step k c p o z2 ms = Err ShapeError.
Proof. intros K V O. exact mem_raises. Qed.
Print Assumptions C44_raises.

(** CBOMemory also raises for every batch size 1 < b < N when all particles are updated. *)
Theorem C44_memory_batch_raises : forall K V (O : KOps K) (c : cfg K V) p (o : orc V) z2 ms log, mem_exec CBOMem c ms log -> perms_valid o (m_s ms) ->
  s_active (m_s ms) <> [] -> 1 < c_bsize c < s_N (m_s ms) ->
  mem_step CBOMem c p o z2 ms = Err ShapeError.
Proof. intros K V O. exact mem_batch_raises. Qed.
Print Assumptions C44_memory_batch_raises.

(** The remaining steps succeed. *)
Theorem C44_otherwise_works : forall K V (O : KOps K) k (c : cfg K V) p (o : orc V) z2 ms log, mem_exec k c ms log -> perms_valid o (m_s ms) ->
  one_consensus_point c -> s_active (m_s ms) <> [] -> length (s_active (m_s ms)) = s_M (m_s ms) ->
  (c_bsize c = s_N (m_s ms) \/ (c_partial c = false /\ (k = Pso \/ c_bsize c = 1))) ->
  exists ms', mem_step k c p o z2 ms = Ok ms'.
Proof. intros K V O. exact mem_works. Qed.
Print Assumptions C44_otherwise_works.

Example C44_case : forall k, exists ms log o, mem_exec k zcm ms log /\ perms_valid o (m_s ms) /\ s_M (m_s ms) = 2 /\ s_active (m_s ms) = [0].
Proof.
  intros [].
  - destruct zmem_partial as (ms & log & H & H1 & H2). exists ms, log, (zorc 0 (seq 0 (s_N (m_s ms)))). split; auto.
    split; [intros m Hm; cbn; apply Permutation_refl|auto].
  - destruct zpso_partial as (ms & log & H & H1 & H2). exists ms, log, (zorc 0 (seq 0 (s_N (m_s ms)))). split; auto.
    split; [intros m Hm; cbn; apply Permutation_refl|auto].
Qed.
Example C44_batch_case : forall k, exists ms log o, mem_exec k zcm3 ms log /\ perms_valid o (m_s ms) /\ s_active (m_s ms) = [0] /\ s_M (m_s ms) = 1 /\
  c_bsize zcm3 = 2 /\ s_N (m_s ms) = 3 /\ c_partial zcm3 = true.
Proof.
  intros k. destruct (zmem_batch k) as (ms & log & H & H1 & H2 & H3). exists ms, log, (zorc 0 (seq 0 (s_N (m_s ms)))). split; auto.
  split; [intros m Hm; cbn; apply Permutation_refl|auto 10].
Qed.
Example C44_works_case : exists ms log o, mem_exec Pso zcm ms log /\ perms_valid o (m_s ms) /\ one_consensus_point zcm /\ s_active (m_s ms) = [0; 1] /\
  s_M (m_s ms) = 2 /\ c_bsize zcm = s_N (m_s ms).
Proof.
  destruct zpso_state as (ms & log & H & H1 & H2 & H3). exists ms, log, (zorc 0 (seq 0 (s_N (m_s ms)))). split; auto.
  split; [intros m Hm; cbn; apply Permutation_refl|]. split; [apply zbest_one|]. auto.
Qed.

(** C43. PSO should move towards the consensus; without noise and memory drift a particle at rest moves
    away: its distance to the consensus is multiplied by 1 + lamda dt^2/(m + gamma dt). *)
Open Scope R_scope.
Theorem C43_repels : forall f k pp b partial cat ks save p (o : orc vec) z2 ms log ms' m n x y v d la dt mm ga,
  p = mkmpar (Fin 0) (Fin 0) (Fin mm) (Fin ga) ->
  mem_exec Pso (cbo_cfg f k pp NoCorr b partial cat ks save) ms log -> perms_valid o (m_s ms) -> s_active (m_s ms) <> [] ->
  mem_step Pso (cbo_cfg f k pp NoCorr b partial cat ks save) p o z2 ms = Ok ms' ->
  parameters la dt 0 (m_s ms) -> mm + ga * dt <> 0 ->
  (exists z, o_z o m n = floats z /\ length z = d) -> (exists z, z2 m n = floats z /\ length z = d) ->
  cell (s_x (m_s ms)) m n = Some (floats x) -> length x = d -> cell (m_y ms) m n = Some (floats y) -> length y = d ->
  cell (m_v ms) m n = Some (floats v) -> length v = d -> (forall i, coord i v = 0) ->
  forall cpt g, s_cons (m_s ms') = Some cpt -> cell cpt m 0 = Some (floats g) -> length g = d ->
  exists x', cell (s_x (m_s ms')) m n = Some (pp (floats x')) /\ length x' = d /\
    vsub x' g = vscal (1 + la * dt * dt / (mm + ga * dt)) (vsub x g).
Proof. exact pso_repels. Qed.
Print Assumptions C43_repels.

(** The first step after construction (velocities zero, consensus a Gibbs mean), for every finite ensemble. *)
Theorem C43_first_step_refuted : forall f k pp b partial cat ks save (o : orc vec) z2 ms ms' m d X la dt mm ga,
  mem_constructed (cbo_cfg f k pp NoCorr b partial cat ks save) ms -> perms_valid o (m_s ms) -> finite_draws d o ->
  (forall i j, exists z, z2 i j = floats z /\ length z = d) ->
  finite_obj d f -> finite_alpha (m_s ms) -> parameters la dt 0 (m_s ms) -> mm + ga * dt <> 0 -> b = s_N (m_s ms) ->
  (m < s_M (m_s ms))%nat -> ensemble_at (m_s ms) m d X ->
  mem_step Pso (cbo_cfg f k pp NoCorr b partial cat ks save) (mkmpar (Fin 0) (Fin 0) (Fin mm) (Fin ga)) o z2 ms = Ok ms' ->
  exists a g cpt, g = gibbs_point a (map f (map floats X)) d X /\ s_cons (m_s ms') = Some cpt /\ cell cpt m 0 = Some (floats g) /\
    forall n x, nth_error X n = Some x -> exists x', cell (s_x (m_s ms')) m n = Some (pp (floats x')) /\ length x' = d /\
      vsub x' g = vscal (1 + la * dt * dt / (mm + ga * dt)) (vsub x g).
Proof. exact pso_first_step_repels. Qed.
Print Assumptions C43_first_step_refuted.

Theorem C43_factor : forall la dt mm ga u, 0 < la -> 0 < dt -> 0 < mm -> 0 <= ga ->
  1 < 1 + la * dt * dt / (mm + ga * dt) /\ vnorm (vscal (1 + la * dt * dt / (mm + ga * dt)) u) = (1 + la * dt * dt / (mm + ga * dt)) * vnorm u.
Proof. intros. pose proof (repulsion_gt_1 la dt mm ga H H0 H1 H2). split; auto. apply vnorm_vscal. lra. Qed.
Print Assumptions C43_factor.

Example C43_case : exists ms ms', mem_constructed rpso ms /\ perms_valid corc (m_s ms) /\ finite_alpha (m_s ms) /\ parameters 1 (/ 10) 0 (m_s ms) /\
  3%nat = s_N (m_s ms) /\ s_M (m_s ms) = 2%nat /\ ensemble_at (m_s ms) 0 2 cX /\ finite_draws 2 corc /\ finite_obj 2 ExCbo.sqf /\
  mem_step Pso rpso rpar corc (fun _ _ => floats [1; 1]) ms = Ok ms'.
Proof. exact pso_case. Qed.
