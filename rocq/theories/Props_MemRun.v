(** * Properties: runs of PSO and CBOMemory without noise (C110) *)
From Coq Require Import String List Arith Bool Reals Lia Lra.
From Verif Require Import Scalar Np State Pdyn Exec RVec Consensus ConsSpec PostProc Cbo CboSpec PolarRestSpec Memory MemSpec MemRunSpec MemRun MemRun2 MemRun3 ExCbo ExMemRun.
Import ListNotations.
Open Scope R_scope.

(** C110. PSO without noise and without memory drift: while the post-processing changes nothing, all differences between the particles of a run
    grow by the same factor, at least (1 + e)^n after n steps, where e is a lower bound of lamda*dt^2/(m + gamma*dt).  This holds for
    every finite objective, so the particles never come together (the sign of the drift, see C43). *)
Theorem C110_pso_spreads : forall (f : vec -> fl R) k (pp : vec -> vec) b partial cat ks save ms m d X e n ms', let c := cbo_cfg f k pp NoCorr b partial cat ks save in
  mem_constructed c ms -> ensemble_at (m_s ms) m d X -> finite_obj d f -> b = s_N (m_s ms) -> 0 <= e ->
  mem_steps Pso (pso_quiet e 0) (untouched m) c d ms n ms' ->
  exists X' s, ensemble_at (m_s ms') m d X' /\ length X' = length X /\ (1 + e) ^ n <= s /\ diffs s X X' /\ ((1 <= n)%nat -> forall x, In x X' -> pp (floats x) = floats x).
Proof. exact pso_spreads. Qed.
Print Assumptions C110_pso_spreads.
Example C110_pso_spreads_example : forall n, exists ms ms', mem_constructed (ecfg (fun v => v)) ms /\ ensemble_at (m_s ms) 0 2 cX /\ finite_obj 2 sqf /\ 3%nat = s_N (m_s ms) /\
  mem_steps Pso (pso_quiet (/ 120) 0) (untouched 0) (ecfg (fun v => v)) 2 ms n ms'.
Proof. exact ex_spreads. Qed.

(** C110. With the default post-processing such a run reaches the clipping bound: if two particles of the run differ, there is a number of
    steps after which the post-processing has changed the run. *)
Theorem C110_pso_clips : forall (f : vec -> fl R) k t b partial cat ks save ms m d X e x1 x2, let c := cbo_cfg f k (pp_point t false) NoCorr b partial cat ks save in
  mem_constructed c ms -> ensemble_at (m_s ms) m d X -> finite_obj d f -> b = s_N (m_s ms) -> 0 <= t -> 0 < e -> In x1 X -> In x2 X -> x1 <> x2 ->
  exists n0, forall n ms', mem_steps Pso (pso_quiet e 0) (untouched m) c d ms n ms' -> (n <= n0)%nat.
Proof. exact pso_clips. Qed.
Print Assumptions C110_pso_clips.
Example C110_pso_clips_example : forall n, exists ms ms', mem_constructed (ecfg (pp_point 100000000 false)) ms /\ ensemble_at (m_s ms) 0 2 cX /\ finite_obj 2 sqf /\ 3%nat = s_N (m_s ms) /\
  In [0; 1] cX /\ In [2; 1] cX /\ [0; 1] <> [2; 1] /\ mem_steps Pso (pso_quiet (/ 120) 0) (fun _ => True) (ecfg (pp_point 100000000 false)) 2 ms n ms'.
Proof. exact ex_clips. Qed.

(** C110. With memory drift: if the objective rises on the rays from the first consensus point through the particles, the memories and the
    consensus point never change and every particle leaves the consensus point along its ray by the factor (1 + e)^n at least. *)
Theorem C110_pso_leaves : forall (f : vec -> fl R) k (pp : vec -> vec) b partial cat ks save ms m d X a e n ms', let c := cbo_cfg f k pp NoCorr b partial cat ks save in
  mem_constructed c ms -> ensemble_at (m_s ms) m d X -> finite_obj d f -> b = s_N (m_s ms) -> 0 <= e ->
  (forall x, In x X -> rising f (gibbs_point a (map f (map floats X)) d X) x) ->
  mem_steps Pso (fun p s => (exists lm, 0 <= lm /\ pso_quiet e lm p s) /\ nth_error (s_alpha s) m = Some [Fin a]) (untouched m) c d ms n ms' ->
  exists X' s, ensemble_at (m_s ms') m d X' /\ points_at (m_y ms') m X /\ (1 + e) ^ n <= s /\
    forall j x x', nth_error X j = Some x -> nth_error X' j = Some x' ->
      vsub x' (gibbs_point a (map f (map floats X)) d X) = vscal s (vsub x (gibbs_point a (map f (map floats X)) d X)).
Proof. exact pso_leaves. Qed.
Print Assumptions C110_pso_leaves.
Example C110_pso_leaves_example : forall n, exists ms ms', mem_constructed (ecfg (fun v => v)) ms /\ ensemble_at (m_s ms) 0 2 cX /\ finite_obj 2 sqf /\ 3%nat = s_N (m_s ms) /\
  (forall x, In x cX -> rising sqf (gibbs_point 5 (map sqf (map floats cX)) 2 cX) x) /\
  mem_steps Pso (fun p s => (exists lm, 0 <= lm /\ pso_quiet (/ 120) lm p s) /\ nth_error (s_alpha s) 0 = Some [Fin 5]) (untouched 0) (ecfg (fun v => v)) 2 ms n ms'.
Proof. exact ex_leaves. Qed.

(** C110. CBOMemory without noise, with lamda*dt and lambda_memory*dt in [0,1]: particles and memories never leave a convex region that
    contains the initial particles and is kept by the post-processing. *)
Theorem C110_memory_hull : forall (f : vec -> fl R) k (pp : vec -> vec) b partial cat ks save ms m d X (C : list R -> Prop) n ms', let c := cbo_cfg f k pp NoCorr b partial cat ks save in
  mem_constructed c ms -> ensemble_at (m_s ms) m d X -> finite_obj d f -> b = s_N (m_s ms) ->
  convex_region d C -> (forall x, In x X -> C x) -> (forall x, length x = d -> C x -> exists x', pp (floats x) = floats x' /\ length x' = d /\ C x') ->
  mem_steps CBOMem mem_quiet (fun _ => True) c d ms n ms' ->
  exists X' Y', ensemble_at (m_s ms') m d X' /\ points_at (m_y ms') m Y' /\ length Y' = length X' /\ forall x, In x X' \/ In x Y' -> C x.
Proof. exact mem_hull. Qed.
Print Assumptions C110_memory_hull.
Example C110_memory_hull_example : forall n, exists ms ms', mem_constructed (ecfg (fun v => v)) ms /\ ensemble_at (m_s ms) 0 2 cX /\ finite_obj 2 sqf /\ 3%nat = s_N (m_s ms) /\
  convex_region 2 strip /\ (forall x, In x cX -> strip x) /\ mem_steps CBOMem mem_quiet (fun _ => True) (ecfg (fun v => v)) 2 ms n ms'.
Proof. exact ex_hull. Qed.
