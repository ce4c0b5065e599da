(** * Properties: symmetries of whole sessions of the variants of CBO (C114) *)
From Coq Require Import String List Arith Bool Permutation Reals Lia Lra.
From Verif Require Import Scalar Np State Pdyn TermSpec RVec ConsSpec Cbo CboSpec TwinSpec RegSched Variant RegVar AdamSpec MirrorMaps HyperMaps SimSpec MemSymSpec SessSpec VarSessSpec SymLaws VarSymInst ExCbo ExMemSym ExCoord ExVarSym Exec MemSpec ExAdamTurn HyperSpec HyperRun MirrorSpec ExHyperShift.
Import ListNotations.
Open Scope R_scope.

(** C114. Adding a constant to the objective (and to the energy tolerance) adds it to all energies of a session of MirrorCBO and changes nothing else: either both sessions raise the same
    exception, or the states agree up to the constant, and the additional attributes agree. *)
Theorem C114_mirror_shift : forall (f : vec -> fl R) k co b partial cat ks save d x0 checked alpha sigma lamda dt perm0 names extra sv l,
  Forall builtin ks -> finite_corr co -> finite_obj d f -> sensible d b x0 alpha sigma lamda dt perm0 sv -> sensible_calls d (length x0) (shape1 x0) l ->
  forall (pp : vec -> vec) h, (forall p, length p = d -> exists q, pp (floats p) = floats q /\ length q = d) ->
  forall gc gr, (forall p, length p = d -> real_point d (gc (floats p))) -> (forall row v, In row x0 -> In v row -> real_point d (gr v)) ->
  same_outcome (both (cbo_mapped (real_point d) (fun v => v) (fun v => v) (add_energy h)) (fun y y' => y' = y)) 
    (var_session (mirror_inner gc) (mirror_attr gr) (cbo_cfg f k pp co b partial cat ks save) x0 checked alpha sigma lamda dt perm0 names extra sv l) 
    (var_session (mirror_inner gc) (mirror_attr gr) (cbo_cfg (fun v => add_energy h (f v)) k pp co b partial cat (map (image_crit (add_energy h)) ks) save) x0 checked alpha sigma lamda dt perm0 names extra sv l).
Proof. exact mirror_shift. Qed.
Print Assumptions C114_mirror_shift.
Example C114_mirror_shift_example : forall n, (forall p, length p = 2%nat -> real_point 2 (mm_conj (ElasticNet (/ 2) 1) (floats p))) /\
  (forall row v, In row cx0 -> In v row -> real_point 2 (mm_grad (ElasticNet (/ 2) 1) v)) /\
  exists p, vsession (mirror_inner (mm_conj (ElasticNet (/ 2) 1))) (mirror_attr (mm_grad (ElasticNet (/ 2) 1))) (bcfg sqf NAniso scrit) cx0 (bcalls corc n) = Ok p.
Proof. exact ex_mirror_shift. Qed.

(** C114. Adding a constant to the objective (and to the energy tolerance) adds it to all energies of a session of AdamCBO and changes nothing else: either both sessions raise the same
    exception, or the states agree up to the constant, and the additional attributes agree. *)
Theorem C114_adam_shift : forall (f : vec -> fl R) k co b partial cat ks save d x0 checked alpha sigma lamda dt perm0 names extra sv l,
  Forall builtin ks -> finite_corr co -> finite_obj d f -> sensible d b x0 alpha sigma lamda dt perm0 sv -> sensible_calls d (length x0) (shape1 x0) l ->
  forall (pp : vec -> vec) h, (forall p, length p = d -> exists q, pp (floats p) = floats q /\ length q = d) ->
  forall b0 b1 eps, 0 <= b0 < 1 -> 0 <= b1 < 1 -> 0 < eps ->
  same_outcome (both (cbo_mapped (real_point d) (fun v => v) (fun v => v) (add_energy h)) (fun y y' => y' = y))
    (var_session (adam_inner np_sq np_quot (mkapar (Fin b0) (Fin b1) (Fin eps))) (adam_attr (floats (repeat 0 d))) (cbo_cfg f k pp co b partial cat ks save) x0 checked alpha sigma lamda dt perm0 names extra sv l)
    (var_session (adam_inner np_sq np_quot (mkapar (Fin b0) (Fin b1) (Fin eps))) (adam_attr (floats (repeat 0 d))) (cbo_cfg (fun v => add_energy h (f v)) k pp co b partial cat (map (image_crit (add_energy h)) ks) save) x0 checked alpha sigma lamda dt perm0 names extra sv l).
Proof. exact adam_shift. Qed.
Print Assumptions C114_adam_shift.
Example C114_adam_shift_example : forall n, (0 <= 9 / 10 < 1) /\ (0 <= 99 / 100 < 1) /\ 0 < / 100 /\
  exists p, vsession (adam_inner np_sq np_quot (mkapar (Fin (9 / 10)) (Fin (99 / 100)) (Fin (/ 100)))) (adam_attr (floats (repeat 0 2))) (bcfg sqf NAniso scrit) cx0 (bcalls corc n) = Ok p.
Proof. intros n. repeat split; try lra. apply adam_runs. Qed.

(** C114. Adding a constant to the objective (and to the energy tolerance) adds it to all energies of a session of DriftConstrainedCBO and changes nothing else: either both sessions raise the same
    exception, or the states agree up to the constant, and the additional attributes agree. *)
Theorem C114_dc_shift : forall (f : vec -> fl R) k co b partial cat ks save d x0 checked alpha sigma lamda dt perm0 names extra sv l,
  Forall builtin ks -> finite_corr co -> finite_obj d f -> sensible d b x0 alpha sigma lamda dt perm0 sv -> sensible_calls d (length x0) (shape1 x0) l ->
  forall (pp : vec -> vec) h, (forall p, length p = d -> exists q, pp (floats p) = floats q /\ length q = d) ->
  forall (G : multi (K := R) (V := vec)) e, e <> 0 -> (forall p, length p = d -> real_point d (g_grad G (floats p))) ->
  (forall a p u w, length p = d -> length u = d -> g_solve G (Fin a) (floats p) (floats u) = Ok w -> real_point d w) ->
  same_outcome (both (cbo_mapped (real_point d) (fun v => v) (fun v => v) (add_energy h)) (fun y y' => y' = y)) 
    (var_session (dc_inner (Some G) (Fin e)) (fun _ => tt) (cbo_cfg f k pp co b partial cat ks save) x0 checked alpha sigma lamda dt perm0 names extra sv l) 
    (var_session (dc_inner (Some G) (Fin e)) (fun _ => tt) (cbo_cfg (fun v => add_energy h (f v)) k pp co b partial cat (map (image_crit (add_energy h)) ks) save) x0 checked alpha sigma lamda dt perm0 names extra sv l).
Proof. exact dc_shift. Qed.
Print Assumptions C114_dc_shift.
Example C114_dc_shift_example : forall n, (/ 10 <> 0) /\ (forall p, length p = 2%nat -> real_point 2 (g_grad (line 0 0) (floats p))) /\
  (forall a p u w, length p = 2%nat -> length u = 2%nat -> g_solve (line 0 0) (Fin a) (floats p) (floats u) = Ok w -> real_point 2 w) /\
  exists p, vsession (dc_inner (Some (line 0 0)) (Fin (/ 10))) (fun _ => tt) (bcfg sqf NAniso scrit) cx0 (bcalls corc n) = Ok p.
Proof. exact ex_dc_shift. Qed.

(** C114. Adding a constant to the objective (and to the energy tolerance) adds it to all energies of a session of HyperSurfaceCBO and changes nothing else: either both sessions raise the same
    exception, or the states agree up to the constant, and the additional attributes agree. *)
Theorem C114_hyper_shift : forall (f : vec -> fl R) k co b partial cat ks save d x0 checked alpha sigma lamda dt perm0 names extra sv l,
  Forall builtin ks -> finite_corr co -> finite_obj d f -> sensible d b x0 alpha sigma lamda dt perm0 sv -> sensible_calls d (length x0) (shape1 x0) l ->
  forall (pp : vec -> vec) h, (forall p, length p = d -> exists q, pp (floats p) = floats q /\ length q = d) ->
  forall (S : surface (K := R) (V := vec)), (forall p u, length p = d -> length u = d -> real_point d (h_tan S (floats p) (floats u))) ->
  (forall p, length p = d -> real_point d (h_proj S (floats p))) ->
  (forall t sg p u, length p = d -> length u = d -> real_point d (h_nc S (Fin t) (Fin sg) (floats p) (floats u))) ->
  same_outcome (both (cbo_mapped (real_point d) (fun v => v) (fun v => v) (add_energy h)) (fun y y' => y' = y)) 
    (var_session (hyper_inner S) (fun _ => tt) (cbo_cfg f k pp co b partial cat ks save) x0 checked alpha sigma lamda dt perm0 names extra sv l) 
    (var_session (hyper_inner S) (fun _ => tt) (cbo_cfg (fun v => add_energy h (f v)) k pp co b partial cat (map (image_crit (add_energy h)) ks) save) x0 checked alpha sigma lamda dt perm0 names extra sv l).
Proof. exact hyper_shift. Qed.
Print Assumptions C114_hyper_shift.
Example C114_hyper_shift_example : forall n, (forall p u, length p = 2%nat -> length u = 2%nat -> real_point 2 (h_tan (surface_of (PlaneD [1; 0] 0) NIso) (floats p) (floats u))) /\
  (forall p, length p = 2%nat -> real_point 2 (h_proj (surface_of (PlaneD [1; 0] 0) NIso) (floats p))) /\
  (forall t sg p u, length p = 2%nat -> length u = 2%nat -> real_point 2 (h_nc (surface_of (PlaneD [1; 0] 0) NIso) (Fin t) (Fin sg) (floats p) (floats u))) /\
  exists p, vsession (hyper_inner (surface_of (PlaneD [1; 0] 0) NIso)) (fun _ => tt) (bcfg sqf NIso scrit) cx0 (bcalls corc n) = Ok p.
Proof. exact ex_hyper_shift. Qed.

(** C114. Adding a constant to the objective (and to the energy tolerance) adds it to all energies of a session of RegCombinationCBO and changes nothing else: either both sessions raise the same
    exception, or the states agree up to the constant, and the additional attributes agree. *)
Theorem C114_reg_shift : forall (f : vec -> fl R) k co b partial cat ks save d x0 checked alpha sigma lamda dt perm0 names extra sv l,
  Forall builtin ks -> finite_corr co -> finite_obj d f -> sensible d b x0 alpha sigma lamda dt perm0 sv -> sensible_calls d (length x0) (shape1 x0) l ->
  forall (pp : vec -> vec) h, (forall p, length p = d -> exists q, pp (floats p) = floats q /\ length q = d) ->
  forall (f0 reg : vec -> fl R) (pow : fl R -> fl R) la (solve : option (fl R -> vec -> vec -> res vec)) e, finite_obj d f0 -> finite_obj d (fun v => pow (reg v)) ->
  (forall v, f v = fadd (f0 v) (fmul (Fin la) (pow (reg v)))) ->
  match solve with None => True | Some sf => e <> 0 /\ forall a p u w, length p = d -> length u = d -> sf (Fin a) (floats p) (floats u) = Ok w -> real_point d w end ->
  same_outcome (both (cbo_mapped (real_point d) (fun v => v) (fun v => v) (add_energy h)) (fun y y' => y' = y)) 
    (var_session (reg_inner (reg_call f0 reg pow) solve (Fin e)) (reg_attr (Fin la)) (cbo_cfg f k pp co b partial cat ks save) x0 checked alpha sigma lamda dt perm0 names extra sv l)
    (var_session (reg_inner (reg_call (fun v => add_energy h (f0 v)) reg pow) solve (Fin e)) (reg_attr (Fin la)) (cbo_cfg (fun v => add_energy h (f v)) k pp co b partial cat (map (image_crit (add_energy h)) ks) save) x0 checked alpha sigma lamda dt perm0 names extra sv l).
Proof. exact reg_shift. Qed.
Print Assumptions C114_reg_shift.
Example C114_reg_shift_example : forall n, finite_obj 2 (pen sqf) /\ finite_obj 2 sqf /\ finite_obj 2 (fun v => psq (sqf v)) /\ (forall v, pen sqf v = fadd (sqf v) (fmul (Fin 2) (psq (sqf v)))) /\
  (/ 10 <> 0 /\ forall a p u w, length p = 2%nat -> length u = 2%nat -> mid (Fin a) (floats p) (floats u) = Ok w -> real_point 2 w) /\
  exists p, vsession (reg_inner (reg_call sqf sqf psq) (Some mid) (Fin (/ 10))) (reg_attr (Fin 2)) (bcfg (pen sqf) NAniso scrit) cx0 (bcalls corc n) = Ok p.
Proof. exact ex_reg_shift. Qed.

(** C114. Translating objective, post-processing, initial ensemble (and constraints, penalty and solver) translates a session of AdamCBO; the additional attributes agree. *)
Theorem C114_adam_translation : forall (f : vec -> fl R) k co b partial cat ks save d x0 checked alpha sigma lamda dt perm0 names extra sv l,
  Forall builtin ks -> finite_corr co -> finite_obj d f -> sensible d b x0 alpha sigma lamda dt perm0 sv -> sensible_calls d (length x0) (shape1 x0) l ->
  forall f' t (pp pp' : vec -> vec), length t = d -> (forall p, length p = d -> f' (floats (vadd p t)) = f (floats p)) ->
  (forall p, length p = d -> exists q, pp (floats p) = floats q /\ length q = d /\ pp' (floats (vadd p t)) = floats (vadd q t)) ->
  forall b0 b1 eps, 0 <= b0 < 1 -> 0 <= b1 < 1 -> 0 < eps ->
  same_outcome (both (cbo_mapped (real_point d) (translate t) (fun v => v) (fun e => e)) (fun y y' => y' = y))
    (var_session (adam_inner np_sq np_quot (mkapar (Fin b0) (Fin b1) (Fin eps))) (adam_attr (floats (repeat 0 d))) (cbo_cfg f k pp co b partial cat ks save) x0 checked alpha sigma lamda dt perm0 names extra sv l)
    (var_session (adam_inner np_sq np_quot (mkapar (Fin b0) (Fin b1) (Fin eps))) (adam_attr (floats (repeat 0 d))) (cbo_cfg f' k pp' co b partial cat ks save) (map (map (translate t)) x0) checked alpha sigma lamda dt perm0 names extra sv l).
Proof. exact adam_translation. Qed.
Print Assumptions C114_adam_translation.
Example C114_adam_translation_example : forall n, (0 <= 9 / 10 < 1) /\ (0 <= 99 / 100 < 1) /\ 0 < / 100 /\
  exists p, vsession (adam_inner np_sq np_quot (mkapar (Fin (9 / 10)) (Fin (99 / 100)) (Fin (/ 100)))) (adam_attr (floats (repeat 0 2))) (bcfg sqf NAniso scrit) cx0 (bcalls corc n) = Ok p.
Proof. intros n. repeat split; try lra. apply adam_runs. Qed.

(** C114. Translating objective, post-processing, initial ensemble (and constraints, penalty and solver) translates a session of DriftConstrainedCBO; the additional attributes agree. *)
Theorem C114_dc_translation : forall (f : vec -> fl R) k co b partial cat ks save d x0 checked alpha sigma lamda dt perm0 names extra sv l,
  Forall builtin ks -> finite_corr co -> finite_obj d f -> sensible d b x0 alpha sigma lamda dt perm0 sv -> sensible_calls d (length x0) (shape1 x0) l ->
  forall f' t (pp pp' : vec -> vec), length t = d -> (forall p, length p = d -> f' (floats (vadd p t)) = f (floats p)) ->
  (forall p, length p = d -> exists q, pp (floats p) = floats q /\ length q = d /\ pp' (floats (vadd p t)) = floats (vadd q t)) ->
  forall (G G' : multi (K := R) (V := vec)) e, e <> 0 ->
  (forall p, length p = d -> real_point d (g_grad G (floats p)) /\ g_grad G' (floats (vadd p t)) = g_grad G (floats p)) ->
  (forall a p u, length p = d -> length u = d ->
    same_outcome (fun w w' => real_point d w /\ w' = w) (g_solve G (Fin a) (floats p) (floats u)) (g_solve G' (Fin a) (floats (vadd p t)) (floats u))) ->
  same_outcome (both (cbo_mapped (real_point d) (translate t) (fun v => v) (fun e => e)) (fun y y' => y' = y)) 
    (var_session (dc_inner (Some G) (Fin e)) (fun _ => tt) (cbo_cfg f k pp co b partial cat ks save) x0 checked alpha sigma lamda dt perm0 names extra sv l) 
    (var_session (dc_inner (Some G') (Fin e)) (fun _ => tt) (cbo_cfg f' k pp' co b partial cat ks save) (map (map (translate t)) x0) checked alpha sigma lamda dt perm0 names extra sv l).
Proof. exact dc_translation. Qed.
Print Assumptions C114_dc_translation.
Example C114_dc_translation_example : / 10 <> 0 /\
  (forall p, length p = 2%nat -> real_point 2 (g_grad (line 0 0) (floats p)) /\ g_grad (line 0 5) (floats (vadd p [5; 6])) = g_grad (line 0 0) (floats p)) /\
  (forall a p u, length p = 2%nat -> length u = 2%nat ->
    same_outcome (fun w w' => real_point 2 w /\ w' = w) (g_solve (line 0 0) (Fin a) (floats p) (floats u)) (g_solve (line 0 5) (Fin a) (floats (vadd p [5; 6])) (floats u))).
Proof. exact ex_dc_translation. Qed.

(** C114. Translating objective, post-processing, initial ensemble (and constraints, penalty and solver) translates a session of RegCombinationCBO; the additional attributes agree. *)
Theorem C114_reg_translation : forall (f : vec -> fl R) k co b partial cat ks save d x0 checked alpha sigma lamda dt perm0 names extra sv l,
  Forall builtin ks -> finite_corr co -> finite_obj d f -> sensible d b x0 alpha sigma lamda dt perm0 sv -> sensible_calls d (length x0) (shape1 x0) l ->
  forall f' t (pp pp' : vec -> vec), length t = d -> (forall p, length p = d -> f' (floats (vadd p t)) = f (floats p)) ->
  (forall p, length p = d -> exists q, pp (floats p) = floats q /\ length q = d /\ pp' (floats (vadd p t)) = floats (vadd q t)) ->
  forall (f0 f0' reg reg' : vec -> fl R) (pow : fl R -> fl R) la (solve solve' : option (fl R -> vec -> vec -> res vec)) e, finite_obj d f0 -> finite_obj d (fun v => pow (reg v)) ->
  (forall v, f v = fadd (f0 v) (fmul (Fin la) (pow (reg v)))) -> (forall p, length p = d -> f0' (floats (vadd p t)) = f0 (floats p) /\ reg' (floats (vadd p t)) = reg (floats p)) ->
  match solve, solve' with
  | None, None => True
  | Some sf, Some sf' => e <> 0 /\ forall a p u, length p = d -> length u = d ->
      same_outcome (fun w w' => real_point d w /\ w' = translate t w) (sf (Fin a) (floats p) (floats u)) (sf' (Fin a) (floats (vadd p t)) (floats (vadd u t)))
  | _, _ => False end ->
  same_outcome (both (cbo_mapped (real_point d) (translate t) (fun v => v) (fun e => e)) (fun y y' => y' = y)) 
    (var_session (reg_inner (reg_call f0 reg pow) solve (Fin e)) (reg_attr (Fin la)) (cbo_cfg f k pp co b partial cat ks save) x0 checked alpha sigma lamda dt perm0 names extra sv l)
    (var_session (reg_inner (reg_call f0' reg' pow) solve' (Fin e)) (reg_attr (Fin la)) (cbo_cfg f' k pp' co b partial cat ks save) (map (map (translate t)) x0) checked alpha sigma lamda dt perm0 names extra sv l).
Proof. exact reg_translation. Qed.
Print Assumptions C114_reg_translation.
Example C114_reg_translation_example : (forall p, length p = 2%nat -> pen moved_sqf (floats (vadd p [5; 6])) = pen sqf (floats p)) /\
  (forall a p u, length p = 2%nat -> length u = 2%nat ->
    same_outcome (fun w w' => real_point 2 w /\ w' = translate [5; 6] w) (mid (Fin a) (floats p) (floats u)) (mid (Fin a) (floats (vadd p [5; 6])) (floats (vadd u [5; 6])))).
Proof. exact ex_reg_translation. Qed.

(** C114. With constant or isotropic noise, an isometry applied to objective, post-processing, initial ensemble, draws (and to mirror map, constraints, surface, penalty and solver) is applied to the session of MirrorCBO. *)
Theorem C114_mirror_rotation : forall (f : vec -> fl R) k co b partial cat ks save d x0 checked alpha sigma lamda dt perm0 names extra sv l,
  Forall builtin ks -> finite_corr co -> finite_obj d f -> sensible d b x0 alpha sigma lamda dt perm0 sv -> sensible_calls d (length x0) (shape1 x0) l ->
  forall f' A (pp pp' : vec -> vec), isometry d A -> k <> NAniso -> (forall p, length p = d -> f' (floats (map (fun r => dot r p) A)) = f (floats p)) ->
  (forall p, length p = d -> exists q, pp (floats p) = floats q /\ length q = d /\ pp' (floats (map (fun r => dot r p) A)) = floats (map (fun r => dot r q) A)) ->
  forall gc gr gc' gr', (forall p, length p = d -> exists q, gc (floats p) = floats q /\ length q = d /\ gc' (floats (map (fun r => dot r p) A)) = floats (map (fun r => dot r q) A)) ->
  (forall row v, In row x0 -> In v row -> exists q, gr v = floats q /\ length q = d /\ gr' (rotate A v) = floats (map (fun r => dot r q) A)) ->
  same_outcome (both (cbo_mapped (real_point d) (rotate A) (rotate A) (fun e => e)) (fun y y' => y' = map (map (rotate A)) y)) 
    (var_session (mirror_inner gc) (mirror_attr gr) (cbo_cfg f k pp co b partial cat ks save) x0 checked alpha sigma lamda dt perm0 names extra sv l) 
    (var_session (mirror_inner gc') (mirror_attr gr') (cbo_cfg f' k pp' co b partial cat ks save) (map (map (rotate A)) x0) checked alpha sigma lamda dt perm0 names extra sv (map (change_draws (rotate A)) l)).
Proof. exact mirror_rotation. Qed.
Print Assumptions C114_mirror_rotation.
Example C114_mirror_rotation_example : forall n, (forall p, length p = 2%nat -> exists q, mm_conj (L2 2) (floats p) = floats q /\ length q = 2%nat /\ mm_conj (L2 2) (floats (map (fun r => dot r p) turn)) = floats (map (fun r => dot r q) turn)) /\
  (forall row v, In row cx0 -> In v row -> exists q, mm_grad (L2 2) v = floats q /\ length q = 2%nat /\ mm_grad (L2 2) (rotate turn v) = floats (map (fun r => dot r q) turn)) /\
  exists p, vsession (mirror_inner (mm_conj (L2 2))) (mirror_attr (mm_grad (L2 2))) (bcfg sqf NIso scrit) cx0 (bcalls corc n) = Ok p.
Proof. exact ex_mirror_rotation. Qed.

(** C114. With constant or isotropic noise, an isometry applied to objective, post-processing, initial ensemble, draws (and to mirror map, constraints, surface, penalty and solver) is applied to the session of DriftConstrainedCBO. *)
Theorem C114_dc_rotation : forall (f : vec -> fl R) k co b partial cat ks save d x0 checked alpha sigma lamda dt perm0 names extra sv l,
  Forall builtin ks -> finite_corr co -> finite_obj d f -> sensible d b x0 alpha sigma lamda dt perm0 sv -> sensible_calls d (length x0) (shape1 x0) l ->
  forall f' A (pp pp' : vec -> vec), isometry d A -> k <> NAniso -> (forall p, length p = d -> f' (floats (map (fun r => dot r p) A)) = f (floats p)) ->
  (forall p, length p = d -> exists q, pp (floats p) = floats q /\ length q = d /\ pp' (floats (map (fun r => dot r p) A)) = floats (map (fun r => dot r q) A)) ->
  forall (G G' : multi (K := R) (V := vec)) e, e <> 0 ->
  (forall p, length p = d -> exists q, g_grad G (floats p) = floats q /\ length q = d /\ g_grad G' (floats (map (fun r => dot r p) A)) = floats (map (fun r => dot r q) A)) ->
  (forall a p u, length p = d -> length u = d ->
    same_outcome (fun w w' => real_point d w /\ w' = rotate A w) (g_solve G (Fin a) (floats p) (floats u)) (g_solve G' (Fin a) (floats (map (fun r => dot r p) A)) (floats (map (fun r => dot r u) A)))) ->
  same_outcome (both (cbo_mapped (real_point d) (rotate A) (rotate A) (fun e => e)) (fun y y' => y' = y)) 
    (var_session (dc_inner (Some G) (Fin e)) (fun _ => tt) (cbo_cfg f k pp co b partial cat ks save) x0 checked alpha sigma lamda dt perm0 names extra sv l) 
    (var_session (dc_inner (Some G') (Fin e)) (fun _ => tt) (cbo_cfg f' k pp' co b partial cat ks save) (map (map (rotate A)) x0) checked alpha sigma lamda dt perm0 names extra sv (map (change_draws (rotate A)) l)).
Proof. exact dc_rotation. Qed.
Print Assumptions C114_dc_rotation.
Example C114_dc_rotation_example : / 10 <> 0 /\
  (forall p, length p = 2%nat -> exists q, g_grad (line 0 0) (floats p) = floats q /\ length q = 2%nat /\ g_grad (line 1 0) (floats (map (fun r => dot r p) turn)) = floats (map (fun r => dot r q) turn)) /\
  (forall a p u, length p = 2%nat -> length u = 2%nat ->
    same_outcome (fun w w' => real_point 2 w /\ w' = rotate turn w) (g_solve (line 0 0) (Fin a) (floats p) (floats u)) (g_solve (line 1 0) (Fin a) (floats (map (fun r => dot r p) turn)) (floats (map (fun r => dot r u) turn)))).
Proof. exact ex_dc_rotation. Qed.

(** C114. With constant or isotropic noise, an isometry applied to objective, post-processing, initial ensemble, draws (and to mirror map, constraints, surface, penalty and solver) is applied to the session of HyperSurfaceCBO. *)
Theorem C114_hyper_rotation : forall (f : vec -> fl R) k co b partial cat ks save d x0 checked alpha sigma lamda dt perm0 names extra sv l,
  Forall builtin ks -> finite_corr co -> finite_obj d f -> sensible d b x0 alpha sigma lamda dt perm0 sv -> sensible_calls d (length x0) (shape1 x0) l ->
  forall f' A (pp pp' : vec -> vec), isometry d A -> k <> NAniso -> (forall p, length p = d -> f' (floats (map (fun r => dot r p) A)) = f (floats p)) ->
  (forall p, length p = d -> exists q, pp (floats p) = floats q /\ length q = d /\ pp' (floats (map (fun r => dot r p) A)) = floats (map (fun r => dot r q) A)) ->
  forall (S S' : surface (K := R) (V := vec)),
  (forall p u, length p = d -> length u = d -> exists q, h_tan S (floats p) (floats u) = floats q /\ length q = d /\ h_tan S' (floats (map (fun r => dot r p) A)) (floats (map (fun r => dot r u) A)) = floats (map (fun r => dot r q) A)) ->
  (forall p, length p = d -> exists q, h_proj S (floats p) = floats q /\ length q = d /\ h_proj S' (floats (map (fun r => dot r p) A)) = floats (map (fun r => dot r q) A)) ->
  (forall t sg p u, length p = d -> length u = d -> exists q, h_nc S (Fin t) (Fin sg) (floats p) (floats u) = floats q /\ length q = d /\ h_nc S' (Fin t) (Fin sg) (floats (map (fun r => dot r p) A)) (floats (map (fun r => dot r u) A)) = floats (map (fun r => dot r q) A)) ->
  same_outcome (both (cbo_mapped (real_point d) (rotate A) (rotate A) (fun e => e)) (fun y y' => y' = y)) 
    (var_session (hyper_inner S) (fun _ => tt) (cbo_cfg f k pp co b partial cat ks save) x0 checked alpha sigma lamda dt perm0 names extra sv l) 
    (var_session (hyper_inner S') (fun _ => tt) (cbo_cfg f' k pp' co b partial cat ks save) (map (map (rotate A)) x0) checked alpha sigma lamda dt perm0 names extra sv (map (change_draws (rotate A)) l)).
Proof. exact hyper_rotation. Qed.
Print Assumptions C114_hyper_rotation.
Example C114_hyper_rotation_example : (forall p u, length p = 2%nat -> length u = 2%nat -> exists q, h_tan (surface_of (PlaneD [1; 0] 0) NIso) (floats p) (floats u) = floats q /\ length q = 2%nat /\
    h_tan (surface_of (PlaneD [0; 1] 0) NIso) (floats (map (fun r => dot r p) turn)) (floats (map (fun r => dot r u) turn)) = floats (map (fun r => dot r q) turn)) /\
  (forall p, length p = 2%nat -> exists q, h_proj (surface_of (PlaneD [1; 0] 0) NIso) (floats p) = floats q /\ length q = 2%nat /\
    h_proj (surface_of (PlaneD [0; 1] 0) NIso) (floats (map (fun r => dot r p) turn)) = floats (map (fun r => dot r q) turn)) /\
  (forall t sg p u, length p = 2%nat -> length u = 2%nat -> exists q, h_nc (surface_of (PlaneD [1; 0] 0) NIso) (Fin t) (Fin sg) (floats p) (floats u) = floats q /\ length q = 2%nat /\
    h_nc (surface_of (PlaneD [0; 1] 0) NIso) (Fin t) (Fin sg) (floats (map (fun r => dot r p) turn)) (floats (map (fun r => dot r u) turn)) = floats (map (fun r => dot r q) turn)).
Proof. exact ex_hyper_rotation. Qed.

(** C114. With constant or isotropic noise, an isometry applied to objective, post-processing, initial ensemble, draws (and to mirror map, constraints, surface, penalty and solver) is applied to the session of RegCombinationCBO. *)
Theorem C114_reg_rotation : forall (f : vec -> fl R) k co b partial cat ks save d x0 checked alpha sigma lamda dt perm0 names extra sv l,
  Forall builtin ks -> finite_corr co -> finite_obj d f -> sensible d b x0 alpha sigma lamda dt perm0 sv -> sensible_calls d (length x0) (shape1 x0) l ->
  forall f' A (pp pp' : vec -> vec), isometry d A -> k <> NAniso -> (forall p, length p = d -> f' (floats (map (fun r => dot r p) A)) = f (floats p)) ->
  (forall p, length p = d -> exists q, pp (floats p) = floats q /\ length q = d /\ pp' (floats (map (fun r => dot r p) A)) = floats (map (fun r => dot r q) A)) ->
  forall (f0 f0' reg reg' : vec -> fl R) (pow : fl R -> fl R) la (solve solve' : option (fl R -> vec -> vec -> res vec)) e, finite_obj d f0 -> finite_obj d (fun v => pow (reg v)) ->
  (forall v, f v = fadd (f0 v) (fmul (Fin la) (pow (reg v)))) -> (forall p, length p = d -> f0' (floats (map (fun r => dot r p) A)) = f0 (floats p) /\ reg' (floats (map (fun r => dot r p) A)) = reg (floats p)) ->
  match solve, solve' with
  | None, None => True
  | Some sf, Some sf' => e <> 0 /\ forall a p u, length p = d -> length u = d ->
      same_outcome (fun w w' => real_point d w /\ w' = rotate A w) (sf (Fin a) (floats p) (floats u)) (sf' (Fin a) (floats (map (fun r => dot r p) A)) (floats (map (fun r => dot r u) A)))
  | _, _ => False end ->
  same_outcome (both (cbo_mapped (real_point d) (rotate A) (rotate A) (fun e => e)) (fun y y' => y' = y)) 
    (var_session (reg_inner (reg_call f0 reg pow) solve (Fin e)) (reg_attr (Fin la)) (cbo_cfg f k pp co b partial cat ks save) x0 checked alpha sigma lamda dt perm0 names extra sv l)
    (var_session (reg_inner (reg_call f0' reg' pow) solve' (Fin e)) (reg_attr (Fin la)) (cbo_cfg f' k pp' co b partial cat ks save) (map (map (rotate A)) x0) checked alpha sigma lamda dt perm0 names extra sv (map (change_draws (rotate A)) l)).
Proof. exact reg_rotation. Qed.
Print Assumptions C114_reg_rotation.
Example C114_reg_rotation_example : (forall p, length p = 2%nat -> pen sqf (floats (map (fun r => dot r p) turn)) = pen sqf (floats p)) /\
  (forall a p u, length p = 2%nat -> length u = 2%nat ->
    same_outcome (fun w w' => real_point 2 w /\ w' = rotate turn w) (mid (Fin a) (floats p) (floats u)) (mid (Fin a) (floats (map (fun r => dot r p) turn)) (floats (map (fun r => dot r u) turn)))).
Proof. exact ex_reg_rotation. Qed.

(** C114. Isometries are not symmetries of AdamCBO, whatever its parameters and the noise model: without noise and with a constant objective, the first steps of two
    dynamics whose initial particles and draws are related by a rotation are not. *)
Theorem C114_adam_rotation_refuted : forall k b0 b1 eps, 0 <= b0 < 1 -> 0 <= b1 < 1 -> 0 < eps ->
  let inner := adam_inner np_sq np_quot (mkapar (Fin b0) (Fin b1) (Fin eps)) in let attr := adam_attr (floats (repeat 0 2)) in let c := cbo_cfg (fun _ => Fin 0) k (fun v => v) NoCorr 2 true false [] false in
  exists A x0 o s s' r r', isometry 2 A /\ finite_draws 2 o /\
    init c x0 false (Fin 0) (Fin 0) (Fin 1) (Fin 1) (fun _ => [0; 1]%nat) None [] None = Ok s /\
    init c (map (map (rotate A)) x0) false (Fin 0) (Fin 0) (Fin 1) (Fin 1) (fun _ => [0; 1]%nat) None [] None = Ok s' /\
    perms_valid o s /\ vstep inner c o (s, attr s) = Ok r /\ vstep inner c {| o_z := fun i n => rotate A (o_z o i n); o_perm := o_perm o |} (s', attr s') = Ok r' /\
    s_x (fst r') <> map (map (rotate A)) (s_x (fst r)).
Proof. exact adam_turn. Qed.
Print Assumptions C114_adam_rotation_refuted.
Example C114_adam_rotation_case : (0 <= 9 / 10 < 1) /\ (0 <= 99 / 100 < 1) /\ 0 < / 100.
Proof. lra. Qed.

(** C114. Translations along a plane are not symmetries of HyperSurfaceCBO on that plane, whatever the parameters and the draws (isotropic and anisotropic noise): with a constant
    objective, the first steps of two dynamics whose initial particles differ by such a translation do not. *)
Theorem C114_hyper_translation_refuted : forall k al sg la dt o, k <> NConst -> 0 < dt -> finite_draws 2 o -> (forall m, Permutation (o_perm o m) [0; 1]%nat) ->
  let c := hyper_cfg (fun _ => Fin 0) k (fun v => v) 2 true false [] false in let S := surface_of (PlaneD [1; 0] 3) k in
  exists a x0 s s' r r', (forall q, plane [1; 0] 3 q -> length q = 2%nat -> plane [1; 0] 3 (vadd q a)) /\
    init c x0 false (Fin al) (Fin sg) (Fin la) (Fin dt) (fun _ => [0; 1]%nat) None [] None = Ok s /\
    init c (map (map (translate a)) x0) false (Fin al) (Fin sg) (Fin la) (Fin dt) (fun _ => [0; 1]%nat) None [] None = Ok s' /\
    perms_valid o s /\ vstep (hyper_inner S) c o (s, tt) = Ok (r, tt) /\ vstep (hyper_inner S) c o (s', tt) = Ok (r', tt) /\ s_x r' <> map (map (translate a)) (s_x r).
Proof. exact plane_translation. Qed.
Print Assumptions C114_hyper_translation_refuted.
Example C114_hyper_translation_case : exists o, NIso <> NConst /\ 0 < / 100 /\ finite_draws 2 o /\ (forall m, Permutation (o_perm o m) [0; 1]%nat).
Proof. exists {| o_z := fun i n => floats [INR i; -1]; o_perm := fun _ => [1; 0]%nat |}. split; [discriminate|]. split; [lra|]. split; [intros i n; exists [INR i; -1]; auto|]. intros m. apply perm_swap. Qed.
