(** * Properties: sessions in other units of length and energy (C120) *)
From Coq Require Import String List Arith Bool Reals Lia Lra.
From Verif Require Import Scalar Np State Pdyn TermSpec RVec RVecFacts ConsSpec Cbo CboSpec UnitsSpec Memory MemSpec TwinSpec RegSched Variant RegVar AdamSpec MirrorMaps HyperMaps SimSpec MemSymSpec SessSpec VarSessSpec SymLaws
  ScaleSpec ScaleLaws ScaleVar ExCbo ExMemSym ExCoord ExVarSym ExScale.
Import ListNotations.
Open Scope R_scope.

(** C120. Multiplying all lengths (initial points, post-processing, difference tolerance, the draws of constant noise) by len and all energies (objective, energy tolerance, the argument of the
    correction) by en while dividing alpha by en gives the same session of CBO: both raise the same exception, or positions, consensus and drifts are multiplied by len, energies by en,
    alpha by 1/en, and counters, batches, decisions and the clock agree. *)
Theorem C120_cbo : forall (f f' : vec -> fl R) k (pp pp' : vec -> vec) co co' b partial cat ks save d len en, 0 < len -> 0 < en -> Forall builtin ks -> finite_corr co -> scale_corr en co co' -> finite_obj d f ->
  (forall p, length p = d -> f' (floats (vscal len p)) = times_by en (f (floats p))) ->
  (forall p, length p = d -> exists q, pp (floats p) = floats q /\ length q = d /\ pp' (floats (vscal len p)) = floats (vscal len q)) ->
  forall x0 checked alpha sigma lamda dt perm0 names extra sv l, sensible d b x0 alpha sigma lamda dt perm0 sv -> sensible_calls d (length x0) (shape1 x0) l ->
  same_outcome (scaled len en d)
    (cbo_session (cbo_cfg f k pp co b partial cat ks save) x0 checked alpha sigma lamda dt perm0 names extra sv l)
    (cbo_session (cbo_cfg f' k pp' co' b partial cat (map (scale_crit len en) ks) save) (map (map (map (times_by len))) x0) checked (times_by (/ en) alpha) sigma lamda dt perm0 names extra sv (map (scale_call k len en) l)).
Proof. exact (fun f f' k pp pp' co co' b partial cat ks save d len en H1 H2 H3 H4 H5 H6 H7 H8 => scale_cbo f f' k pp pp' co co' b partial cat ks save d len en H1 H2 H3 H4 H5 H6 H7 H8). Qed.
Print Assumptions C120_cbo.
Example C120_cbo_example : forall n, 0 < 2 /\ 0 < 4 /\ Forall builtin scrit /\ finite_corr NoCorr /\ scale_corr 4 NoCorr NoCorr /\ finite_obj 2 sqf /\
  (forall p, length p = 2%nat -> sqf (floats (vscal 2 p)) = times_by 4 (sqf (floats p))) /\
  sensible 2 2 cx0 (Fin 5) (Fin 1) (Fin 1) (Fin (/ 10)) (fun _ => [2; 0; 1]%nat) None /\ sensible_calls 2 (length cx0) (shape1 cx0) (bcalls corc n) /\
  exists s, bsession (bcfg sqf NAniso scrit) cx0 (bcalls corc n) = Ok s.
Proof. exact ex_scale_cbo. Qed.

(** C120. ... the same session of CBOMemory or PSO; best positions, velocities and the positions at the last evaluation are multiplied by len. *)
Theorem C120_memory : forall (f f' : vec -> fl R) k (pp pp' : vec -> vec) co co' b partial cat ks save d len en, 0 < len -> 0 < en -> Forall builtin ks -> finite_corr co -> scale_corr en co co' -> finite_obj d f ->
  (forall p, length p = d -> f' (floats (vscal len p)) = times_by en (f (floats p))) ->
  (forall p, length p = d -> exists q, pp (floats p) = floats q /\ length q = d /\ pp' (floats (vscal len p)) = floats (vscal len q)) ->
  forall x0 checked alpha sigma lamda dt perm0 names extra sv l, sensible d b x0 alpha sigma lamda dt perm0 sv -> forall kd, finite_calls kd d (length x0) (shape1 x0) dt l ->
  same_outcome (scaled_memory len en d)
    (mem_session kd (cbo_cfg f k pp co b partial cat ks save) x0 checked alpha sigma lamda dt perm0 names extra sv l)
    (mem_session kd (cbo_cfg f' k pp' co' b partial cat (map (scale_crit len en) ks) save) (map (map (map (times_by len))) x0) checked (times_by (/ en) alpha) sigma lamda dt perm0 names extra sv (map (scale_mcall k len en) l)).
Proof. exact (fun f f' k pp pp' co co' b partial cat ks save d len en H1 H2 H3 H4 H5 H6 H7 H8 x0 ch al sg la dt p0 nm ex sv l H9 kd => scale_mem f f' k pp pp' co co' b partial cat ks save d len en H1 H2 H3 H4 H5 H6 H7 H8 kd x0 ch al sg la dt p0 nm ex sv l H9). Qed.
Print Assumptions C120_memory.
Example C120_memory_example : forall kd n, finite_corr (Heavi sfac) /\ scale_corr 4 (Heavi sfac) (Heavi sfac) /\
  finite_calls kd 2 (length cx0) (shape1 cx0) (Fin (/ 10)) (scalls n) /\ exists ms, ssession kd (scfg sqf NAniso scrit) cx0 (scalls n) = Ok ms.
Proof. exact ex_scale_mem. Qed.

(** C120. ... of MirrorCBO, when the mirror map commutes with the change of the unit of length; the dual points are multiplied by len. *)
Theorem C120_mirror : forall (f f' : vec -> fl R) k (pp pp' : vec -> vec) co co' b partial cat ks save d len en, 0 < len -> 0 < en -> Forall builtin ks -> finite_corr co -> scale_corr en co co' -> finite_obj d f ->
  (forall p, length p = d -> f' (floats (vscal len p)) = times_by en (f (floats p))) ->
  (forall p, length p = d -> exists q, pp (floats p) = floats q /\ length q = d /\ pp' (floats (vscal len p)) = floats (vscal len q)) ->
  forall x0 checked alpha sigma lamda dt perm0 names extra sv l, sensible d b x0 alpha sigma lamda dt perm0 sv -> sensible_calls d (length x0) (shape1 x0) l ->
  forall gc gr gc' gr',
  (forall p, length p = d -> exists q, gc (floats p) = floats q /\ length q = d /\ gc' (floats (vscal len p)) = floats (vscal len q)) ->
  (forall row v, In row x0 -> In v row -> exists q, gr v = floats q /\ length q = d /\ gr' (map (times_by len) v) = floats (vscal len q)) ->
  same_outcome (both (scaled len en d) (fun y y' => y' = map (map (map (times_by len))) y))
    (var_session (mirror_inner gc) (mirror_attr gr) (cbo_cfg f k pp co b partial cat ks save) x0 checked alpha sigma lamda dt perm0 names extra sv l)
    (var_session (mirror_inner gc') (mirror_attr gr') (cbo_cfg f' k pp' co' b partial cat (map (scale_crit len en) ks) save) (map (map (map (times_by len))) x0) checked (times_by (/ en) alpha) sigma lamda dt perm0 names extra sv (map (scale_call k len en) l)).
Proof. exact (fun f f' k pp pp' co co' b partial cat ks save d len en H1 H2 H3 H4 H5 H6 H7 H8 => scale_mirror f f' k pp pp' co co' b partial cat ks save d len en H1 H2 H3 H4 H5 H6 H7 H8). Qed.
Print Assumptions C120_mirror.
Example C120_mirror_example : forall n, (forall p, length p = 2%nat -> exists q, mm_conj (L2 2) (floats p) = floats q /\ length q = 2%nat /\ mm_conj (L2 2) (floats (vscal 2 p)) = floats (vscal 2 q)) /\
  (forall row v, In row cx0 -> In v row -> exists q, mm_grad (L2 2) v = floats q /\ length q = 2%nat /\ mm_grad (L2 2) (map (times_by 2) v) = floats (vscal 2 q)) /\
  exists p, vsession (mirror_inner (mm_conj (L2 2))) (mirror_attr (mm_grad (L2 2))) (bcfg sqf NAniso scrit) cx0 (bcalls corc n) = Ok p.
Proof. exact ex_scale_mirror. Qed.

(** C120. ... of DriftConstrainedCBO, when constraint gradient and solver are converted. *)
Theorem C120_dc : forall (f f' : vec -> fl R) k (pp pp' : vec -> vec) co co' b partial cat ks save d len en, 0 < len -> 0 < en -> Forall builtin ks -> finite_corr co -> scale_corr en co co' -> finite_obj d f ->
  (forall p, length p = d -> f' (floats (vscal len p)) = times_by en (f (floats p))) ->
  (forall p, length p = d -> exists q, pp (floats p) = floats q /\ length q = d /\ pp' (floats (vscal len p)) = floats (vscal len q)) ->
  forall x0 checked alpha sigma lamda dt perm0 names extra sv l, sensible d b x0 alpha sigma lamda dt perm0 sv -> sensible_calls d (length x0) (shape1 x0) l ->
  forall (G G' : multi (K := R) (V := vec)) e, e <> 0 ->
  (forall p, length p = d -> exists q, g_grad G (floats p) = floats q /\ length q = d /\ g_grad G' (floats (vscal len p)) = floats (vscal len q)) ->
  (forall a p u, length p = d -> length u = d ->
    same_outcome (fun w w' => real_point d w /\ w' = map (times_by len) w) (g_solve G (Fin a) (floats p) (floats u)) (g_solve G' (Fin a) (floats (vscal len p)) (floats (vscal len u)))) ->
  same_outcome (both (scaled len en d) (fun y y' => y' = y))
    (var_session (dc_inner (Some G) (Fin e)) (fun _ => tt) (cbo_cfg f k pp co b partial cat ks save) x0 checked alpha sigma lamda dt perm0 names extra sv l)
    (var_session (dc_inner (Some G') (Fin e)) (fun _ => tt) (cbo_cfg f' k pp' co' b partial cat (map (scale_crit len en) ks) save) (map (map (map (times_by len))) x0) checked (times_by (/ en) alpha) sigma lamda dt perm0 names extra sv (map (scale_call k len en) l)).
Proof. exact (fun f f' k pp pp' co co' b partial cat ks save d len en H1 H2 H3 H4 H5 H6 H7 H8 => scale_dc f f' k pp pp' co co' b partial cat ks save d len en H1 H2 H3 H4 H5 H6 H7 H8). Qed.
Print Assumptions C120_dc.
Example C120_dc_example : forall n, / 10 <> 0 /\
  (forall p, length p = 2%nat -> exists q, g_grad (line 0 5) (floats p) = floats q /\ length q = 2%nat /\ g_grad (line 0 10) (floats (vscal 2 p)) = floats (vscal 2 q)) /\
  (forall a p u, length p = 2%nat -> length u = 2%nat ->
    same_outcome (fun w w' => real_point 2 w /\ w' = map (times_by 2) w) (g_solve (line 0 5) (Fin a) (floats p) (floats u)) (g_solve (line 0 10) (Fin a) (floats (vscal 2 p)) (floats (vscal 2 u)))) /\
  exists p, vsession (dc_inner (Some (line 0 5)) (Fin (/ 10))) (fun _ => tt) (bcfg sqf NAniso scrit) cx0 (bcalls corc n) = Ok p.
Proof. exact ex_scale_dc. Qed.

(** C120. ... of HyperSurfaceCBO, when the surface is converted. *)
Theorem C120_hyper : forall (f f' : vec -> fl R) k (pp pp' : vec -> vec) co co' b partial cat ks save d len en, 0 < len -> 0 < en -> Forall builtin ks -> finite_corr co -> scale_corr en co co' -> finite_obj d f ->
  (forall p, length p = d -> f' (floats (vscal len p)) = times_by en (f (floats p))) ->
  (forall p, length p = d -> exists q, pp (floats p) = floats q /\ length q = d /\ pp' (floats (vscal len p)) = floats (vscal len q)) ->
  forall x0 checked alpha sigma lamda dt perm0 names extra sv l, sensible d b x0 alpha sigma lamda dt perm0 sv -> sensible_calls d (length x0) (shape1 x0) l ->
  forall (S S' : surface (K := R) (V := vec)),
  (forall p u, length p = d -> length u = d -> exists q, h_tan S (floats p) (floats u) = floats q /\ length q = d /\ h_tan S' (floats (vscal len p)) (floats (vscal len u)) = floats (vscal len q)) ->
  (forall p, length p = d -> exists q, h_proj S (floats p) = floats q /\ length q = d /\ h_proj S' (floats (vscal len p)) = floats (vscal len q)) ->
  (forall t sg p u, length p = d -> length u = d -> exists q, h_nc S (Fin t) (Fin sg) (floats p) (floats u) = floats q /\ length q = d /\ h_nc S' (Fin t) (Fin sg) (floats (vscal len p)) (floats (vscal len u)) = floats (vscal len q)) ->
  same_outcome (both (scaled len en d) (fun y y' => y' = y))
    (var_session (hyper_inner S) (fun _ => tt) (cbo_cfg f k pp co b partial cat ks save) x0 checked alpha sigma lamda dt perm0 names extra sv l)
    (var_session (hyper_inner S') (fun _ => tt) (cbo_cfg f' k pp' co' b partial cat (map (scale_crit len en) ks) save) (map (map (map (times_by len))) x0) checked (times_by (/ en) alpha) sigma lamda dt perm0 names extra sv (map (scale_call k len en) l)).
Proof. exact (fun f f' k pp pp' co co' b partial cat ks save d len en H1 H2 H3 H4 H5 H6 H7 H8 => scale_hyper f f' k pp pp' co co' b partial cat ks save d len en H1 H2 H3 H4 H5 H6 H7 H8). Qed.
Print Assumptions C120_hyper.
Example C120_hyper_example : forall n,
  (forall p u, length p = 2%nat -> length u = 2%nat -> exists q, h_tan (surface_of (PlaneD [1; 0] 0) NIso) (floats p) (floats u) = floats q /\ length q = 2%nat /\
    h_tan (surface_of (PlaneD [1; 0] 0) NIso) (floats (vscal 2 p)) (floats (vscal 2 u)) = floats (vscal 2 q)) /\
  (forall p, length p = 2%nat -> exists q, h_proj (surface_of (PlaneD [1; 0] 0) NIso) (floats p) = floats q /\ length q = 2%nat /\
    h_proj (surface_of (PlaneD [1; 0] 0) NIso) (floats (vscal 2 p)) = floats (vscal 2 q)) /\
  (forall t sg p u, length p = 2%nat -> length u = 2%nat -> exists q, h_nc (surface_of (PlaneD [1; 0] 0) NIso) (Fin t) (Fin sg) (floats p) (floats u) = floats q /\ length q = 2%nat /\
    h_nc (surface_of (PlaneD [1; 0] 0) NIso) (Fin t) (Fin sg) (floats (vscal 2 p)) (floats (vscal 2 u)) = floats (vscal 2 q)) /\
  exists p, vsession (hyper_inner (surface_of (PlaneD [1; 0] 0) NIso)) (fun _ => tt) (bcfg sqf NIso scrit) cx0 (bcalls corc n) = Ok p.
Proof. exact ex_scale_hyper. Qed.

(** C120. ... of RegCombinationCBO: the regularisation is an energy, its factor a pure number. *)
Theorem C120_reg : forall (f f' : vec -> fl R) k (pp pp' : vec -> vec) co co' b partial cat ks save d len en, 0 < len -> 0 < en -> Forall builtin ks -> finite_corr co -> scale_corr en co co' -> finite_obj d f ->
  (forall p, length p = d -> f' (floats (vscal len p)) = times_by en (f (floats p))) ->
  (forall p, length p = d -> exists q, pp (floats p) = floats q /\ length q = d /\ pp' (floats (vscal len p)) = floats (vscal len q)) ->
  forall x0 checked alpha sigma lamda dt perm0 names extra sv l, sensible d b x0 alpha sigma lamda dt perm0 sv -> sensible_calls d (length x0) (shape1 x0) l ->
  forall (f0 f0' reg reg' : vec -> fl R) (pow : fl R -> fl R) la (solve solve' : option (fl R -> vec -> vec -> res vec)) e,
  (forall v, f v = fadd (f0 v) (fmul (Fin la) (pow (reg v)))) ->
  (forall p, length p = d -> exists r q, f0 (floats p) = Fin r /\ f0' (floats (vscal len p)) = Fin (en * r) /\ pow (reg (floats p)) = Fin q /\ pow (reg' (floats (vscal len p))) = Fin (en * q)) ->
  match solve, solve' with
  | None, None => True
  | Some sf, Some sf' => e <> 0 /\ forall a p u, length p = d -> length u = d ->
      same_outcome (fun w w' => real_point d w /\ w' = map (times_by len) w) (sf (Fin a) (floats p) (floats u)) (sf' (Fin a) (floats (vscal len p)) (floats (vscal len u)))
  | _, _ => False
  end ->
  same_outcome (both (scaled len en d) (fun y y' => y' = y))
    (var_session (reg_inner (reg_call f0 reg pow) solve (Fin e)) (reg_attr (Fin la)) (cbo_cfg f k pp co b partial cat ks save) x0 checked alpha sigma lamda dt perm0 names extra sv l)
    (var_session (reg_inner (reg_call f0' reg' pow) solve' (Fin e)) (reg_attr (Fin la)) (cbo_cfg f' k pp' co' b partial cat (map (scale_crit len en) ks) save) (map (map (map (times_by len))) x0) checked (times_by (/ en) alpha) sigma lamda dt perm0 names extra sv (map (scale_call k len en) l)).
Proof. exact (fun f f' k pp pp' co co' b partial cat ks save d len en H1 H2 H3 H4 H5 H6 H7 H8 => scale_reg f f' k pp pp' co co' b partial cat ks save d len en H1 H2 H3 H4 H5 H6 H7 H8). Qed.
Print Assumptions C120_reg.
Example C120_reg_example : forall n, finite_obj 2 pen1 /\ (forall p, length p = 2%nat -> pen1 (floats (vscal 2 p)) = times_by 4 (pen1 (floats p))) /\
  (forall v, pen1 v = fadd (sqf v) (fmul (Fin 2) ((fun a => a) (sqf v)))) /\
  (forall p, length p = 2%nat -> exists r q, sqf (floats p) = Fin r /\ sqf (floats (vscal 2 p)) = Fin (4 * r) /\ sqf (floats p) = Fin q /\ sqf (floats (vscal 2 p)) = Fin (4 * q)) /\
  (/ 10 <> 0 /\ forall a p u, length p = 2%nat -> length u = 2%nat ->
    same_outcome (fun w w' => real_point 2 w /\ w' = map (times_by 2) w) (mid (Fin a) (floats p) (floats u)) (mid (Fin a) (floats (vscal 2 p)) (floats (vscal 2 u)))) /\
  exists p, vsession (reg_inner (reg_call sqf sqf (fun a => a)) (Some mid) (Fin (/ 10))) (reg_attr (Fin 2)) (bcfg pen1 NAniso scrit) cx0 (bcalls corc n) = Ok p.
Proof. exact ex_scale_reg. Qed.

(** C120. Sessions of AdamCBO allow a change of the unit of energy ... *)
Theorem C120_adam_energy : forall (f f' : vec -> fl R) k (pp : vec -> vec) co co' b partial cat ks save d en, 0 < en -> Forall builtin ks -> finite_corr co -> scale_corr en co co' -> finite_obj d f ->
  (forall p, length p = d -> f' (floats p) = times_by en (f (floats p))) -> (forall p, length p = d -> exists q, pp (floats p) = floats q /\ length q = d) ->
  forall b0 b1 eps, 0 <= b0 < 1 -> 0 <= b1 < 1 -> 0 < eps ->
  forall x0 checked alpha sigma lamda dt perm0 names extra sv l, sensible d b x0 alpha sigma lamda dt perm0 sv -> sensible_calls d (length x0) (shape1 x0) l ->
  same_outcome (both (scaled 1 en d) (fun y y' => y' = y))
    (var_session (adam_inner np_sq np_quot (mkapar (Fin b0) (Fin b1) (Fin eps))) (adam_attr (floats (repeat 0 d))) (cbo_cfg f k pp co b partial cat ks save) x0 checked alpha sigma lamda dt perm0 names extra sv l)
    (var_session (adam_inner np_sq np_quot (mkapar (Fin b0) (Fin b1) (Fin eps))) (adam_attr (floats (repeat 0 d))) (cbo_cfg f' k pp co' b partial cat (map (scale_crit 1 en) ks) save)
      (map (map (map (times_by 1))) x0) checked (times_by (/ en) alpha) sigma lamda dt perm0 names extra sv (map (scale_call k 1 en) l)).
Proof. exact scale_adam. Qed.
Print Assumptions C120_adam_energy.
Example C120_adam_example : forall n, (0 <= 9 / 10 < 1) /\ (0 <= 99 / 100 < 1) /\ 0 < / 100 /\ (forall p, length p = 2%nat -> (fun v => times_by 4 (sqf v)) (floats p) = times_by 4 (sqf (floats p))) /\
  exists p, vsession (adam_inner np_sq np_quot (mkapar (Fin (9 / 10)) (Fin (99 / 100)) (Fin (/ 100)))) (adam_attr (floats (repeat 0 2))) (bcfg sqf NAniso scrit) cx0 (bcalls corc n) = Ok p.
Proof. intros n. repeat split; try lra. apply adam_runs. Qed.

(** ... but not of the unit of length: from first moments multiplied by len, second moments by len^2 and eps by len the code computes the same direction, not one multiplied by len. *)
Theorem C120_adam_direction : forall len eps (m v : list R), 0 < len -> length m = length v -> (forall x, In x v -> 0 <= x) -> 0 < eps ->
  np_quot (Fin (len * eps)) (floats (vscal len m)) (floats (vscal (len * len) v)) = np_quot (Fin eps) (floats m) (floats v).
Proof. exact adam_direction. Qed.
Print Assumptions C120_adam_direction.
Example C120_direction_example : 0 < 2 /\ length [1; -3] = length [4; 9] /\ (forall x, In x [4; 9] -> 0 <= x) /\ 0 < / 100.
Proof. repeat split; try lra. intros x [<-|[<-|[]]]; lra. Qed.

(** C120. heavi_side_correction needs no conversion; heavi_side_reg_correction needs its eps converted as an energy ... *)
Theorem C120_heavi : forall en eps, 0 < en -> 0 < eps -> scale_corr en (Heavi heavi_side_fac) (Heavi heavi_side_fac) /\ scale_corr en (Heavi (heavi_reg_fac eps)) (Heavi (heavi_reg_fac (en * eps))).
Proof. exact (fun en eps H1 H2 => conj (heavi_scaled en H1) (heavi_reg_scaled en eps H1 H2)). Qed.
Print Assumptions C120_heavi.
(** ... so with a fixed eps, such as the default 1e-3, the dynamic has an energy scale of its own. *)
Theorem C120_fixed_eps_refuted : forall en eps, 1 < en -> 0 < eps -> ~ scale_corr en (Heavi (heavi_reg_fac eps)) (Heavi (heavi_reg_fac eps)).
Proof. exact heavi_reg_fixed. Qed.
Print Assumptions C120_fixed_eps_refuted.
Example C120_eps_example : 1 < 4 /\ 0 < / 1000.
Proof. lra. Qed.
