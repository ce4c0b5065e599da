(** * Properties: symmetries of whole sessions with CBO (C38, C72), and coordinate maps (C113) *)
From Coq Require Import String List Arith Bool Reals Lia Lra.
From Verif Require Import Scalar Np State Pdyn TermSpec RVec ConsSpec Cbo CboSpec TwinSpec Memory MemSpec SimSpec MemSymSpec SessSpec SymLaws CoordSpec CoordFacts ExCbo ExMemRun ExMemSym ExCoord TwinSpec ExAniso.
Import ListNotations.
Open Scope R_scope.

(** C38, whole sessions. Adding a constant to the objective (and to the energy tolerance) adds it to all energies and changes nothing else: either both
    sessions raise the same exception, or both end in states which agree up to the constant. Correction terms, post-processing and mini-batches included. *)
Theorem C38_session_energy_shift : forall (f : vec -> fl R) k co b partial cat ks save d x0 checked alpha sigma lamda dt perm0 names extra sv l,
  Forall builtin ks -> finite_corr co -> finite_obj d f -> sensible d b x0 alpha sigma lamda dt perm0 sv -> sensible_calls d (length x0) (shape1 x0) l ->
  forall pp h, (forall p, length p = d -> exists q, pp (floats p) = floats q /\ length q = d) ->
  same_outcome (cbo_mapped (real_point d) (fun v => v) (fun v => v) (add_energy h))
    (cbo_session (cbo_cfg f k pp co b partial cat ks save) x0 checked alpha sigma lamda dt perm0 names extra sv l)
    (cbo_session (cbo_cfg (fun v => add_energy h (f v)) k pp co b partial cat (map (image_crit (add_energy h)) ks) save) x0 checked alpha sigma lamda dt perm0 names extra sv l).
Proof. intros; apply cbo_energy_shift; auto. Qed.
Print Assumptions C38_session_energy_shift.
Example C38_session_example : forall n, Forall builtin scrit /\ finite_corr NoCorr /\ finite_obj 2 sqf /\
  sensible 2 2 cx0 (Fin 5) (Fin 1) (Fin 1) (Fin (/ 10)) (fun _ => [2; 0; 1]%nat) None /\ sensible_calls 2 (length cx0) (shape1 cx0) (bcalls corc n) /\
  exists s, bsession (bcfg sqf NAniso scrit) cx0 (bcalls corc n) = Ok s.
Proof. exact ex_cbo_shift. Qed.

(** C38, whole sessions. Translating objective, post-processing and initial ensemble translates the session. *)
Theorem C38_session_translation : forall (f : vec -> fl R) k co b partial cat ks save d x0 checked alpha sigma lamda dt perm0 names extra sv l,
  Forall builtin ks -> finite_corr co -> finite_obj d f -> sensible d b x0 alpha sigma lamda dt perm0 sv -> sensible_calls d (length x0) (shape1 x0) l ->
  forall f' t pp pp', length t = d -> (forall p, length p = d -> f' (floats (vadd p t)) = f (floats p)) ->
  (forall p, length p = d -> exists q, pp (floats p) = floats q /\ length q = d /\ pp' (floats (vadd p t)) = floats (vadd q t)) ->
  same_outcome (cbo_mapped (real_point d) (translate t) (fun v => v) (fun e => e))
    (cbo_session (cbo_cfg f k pp co b partial cat ks save) x0 checked alpha sigma lamda dt perm0 names extra sv l)
    (cbo_session (cbo_cfg f' k pp' co b partial cat ks save) (map (map (translate t)) x0) checked alpha sigma lamda dt perm0 names extra sv l).
Proof. intros; apply cbo_translation; auto. Qed.
Print Assumptions C38_session_translation.
Example C38_session_translation_example : length [5; 6] = 2%nat /\ (forall p, length p = 2%nat -> moved_sqf (floats (vadd p [5; 6])) = sqf (floats p)) /\
  (forall p, length p = 2%nat -> exists q, box (floats p) = floats q /\ length q = 2%nat /\ moved_box (floats (vadd p [5; 6])) = floats (vadd q [5; 6])).
Proof. exact ex_translation. Qed.

(** C72, whole sessions. With constant or isotropic noise, an isometry applied to objective, post-processing, initial ensemble and draws is applied to the session. *)
Theorem C72_session_rotation : forall (f : vec -> fl R) k co b partial cat ks save d x0 checked alpha sigma lamda dt perm0 names extra sv l,
  Forall builtin ks -> finite_corr co -> finite_obj d f -> sensible d b x0 alpha sigma lamda dt perm0 sv -> sensible_calls d (length x0) (shape1 x0) l ->
  forall f' A pp pp', isometry d A -> k <> NAniso -> (forall p, length p = d -> f' (floats (map (fun r => dot r p) A)) = f (floats p)) ->
  (forall p, length p = d -> exists q, pp (floats p) = floats q /\ length q = d /\ pp' (floats (map (fun r => dot r p) A)) = floats (map (fun r => dot r q) A)) ->
  same_outcome (cbo_mapped (real_point d) (rotate A) (rotate A) (fun e => e))
    (cbo_session (cbo_cfg f k pp co b partial cat ks save) x0 checked alpha sigma lamda dt perm0 names extra sv l)
    (cbo_session (cbo_cfg f' k pp' co b partial cat ks save) (map (map (rotate A)) x0) checked alpha sigma lamda dt perm0 names extra sv (map (change_draws (rotate A)) l)).
Proof. intros; apply cbo_rotation; auto. Qed.
Print Assumptions C72_session_rotation.
Example C72_session_example : isometry 2 turn /\ (forall p, length p = 2%nat -> sqf (floats (map (fun r => dot r p) turn)) = sqf (floats p)) /\
  (forall p, length p = 2%nat -> exists q, box (floats p) = floats q /\ length q = 2%nat /\ box (floats (map (fun r => dot r p) turn)) = floats (map (fun r => dot r q) turn)).
Proof. exact ex_rotation. Qed.
(** C72. With anisotropic noise it is false: after one step of two runs of |x|^2 related by a rotation the positions are not related by it. *)
Theorem C72_anisotropic_refuted : exists f A s1 s1', let c := cbo_cfg f NAniso (fun v => v) NoCorr 3 true false [] false in
  finite_obj 2 f /\ isometry 2 A /\ (forall p, length p = 2%nat -> f (floats (map (fun r => dot r p) A)) = f (floats p)) /\
  paired (rotate A) c c (rotate A) (finite_state 2) (finite_draws 2) s1 s1' /\ s_x s1' <> map (map (rotate A)) (s_x s1).
Proof. exact aniso_refuted. Qed.
Print Assumptions C72_anisotropic_refuted.

(** C113. With anisotropic or constant noise the coordinates of a CBO session do not mix: a map which computes each coordinate of the image as a * x_i + b
    (other order, other units, shifts, dropped and repeated coordinates) maps the session. Draws are selected (anisotropic) or scaled (constant noise) in the same way.
    Exceptions, energies, counters, decisions and the shape of the history agree; criteria which look at the norm of the update are excluded. *)
Theorem C113_coordinates : forall (f f' : vec -> fl R) k (pp pp' : vec -> vec) co b partial cat (ks : list (crit R vec)) save d m, reads d m -> k <> NIso -> Forall no_norm ks -> finite_corr co -> finite_obj d f ->
  (forall p, length p = d -> f' (floats (coord_map m p)) = f (floats p)) ->
  (forall p, length p = d -> exists q, pp (floats p) = floats q /\ length q = d /\ pp' (floats (coord_map m p)) = floats (coord_map m q)) ->
  forall x0 checked alpha sigma lamda dt perm0 names extra sv l, sensible d b x0 alpha sigma lamda dt perm0 sv -> sensible_calls d (length x0) (shape1 x0) l ->
  same_outcome (mapped_but_norms (real_point d) (coord_image m) (coord_image (linear_part m)))
    (cbo_session (cbo_cfg f k pp co b partial cat ks save) x0 checked alpha sigma lamda dt perm0 names extra sv l)
    (cbo_session (cbo_cfg f' k pp' co b partial cat ks save) (map (map (coord_image m)) x0) checked alpha sigma lamda dt perm0 names extra sv (map (change_draws (coord_image (draw_image k m))) l)).
Proof. exact coordinates_cbo. Qed.
Print Assumptions C113_coordinates.
Example C113_coordinates_example : reads 2 exm /\ (forall p, length p = 2%nat -> units_sqf (floats (coord_map exm p)) = sqf (floats p)) /\ coord_map exm [7; 8] = [21; -7; 24] /\
  coord_map (linear_part exm) [7; 8] = [16; -7; 24] /\ coord_map (selection exm) [7; 8] = [8; 7; 8].
Proof. exact ex_units. Qed.

(** C113. The same for CBOMemory and PSO. *)
Theorem C113_coordinates_memory : forall kd (f f' : vec -> fl R) k (pp pp' : vec -> vec) co b partial cat (ks : list (crit R vec)) save d m, reads d m -> k <> NIso -> Forall no_norm ks -> finite_corr co -> finite_obj d f ->
  (forall p, length p = d -> f' (floats (coord_map m p)) = f (floats p)) ->
  (forall p, length p = d -> exists q, pp (floats p) = floats q /\ length q = d /\ pp' (floats (coord_map m p)) = floats (coord_map m q)) ->
  forall x0 checked alpha sigma lamda dt perm0 names extra sv l, sensible d b x0 alpha sigma lamda dt perm0 sv -> finite_calls kd d (length x0) (shape1 x0) dt l ->
  same_outcome (mem_mapped_but_norms (real_point d) (coord_image m) (coord_image (linear_part m)))
    (mem_session kd (cbo_cfg f k pp co b partial cat ks save) x0 checked alpha sigma lamda dt perm0 names extra sv l)
    (mem_session kd (cbo_cfg f' k pp' co b partial cat ks save) (map (map (coord_image m)) x0) checked alpha sigma lamda dt perm0 names extra sv (map (map_draws (coord_image (draw_image k m))) l)).
Proof. exact coordinates_mem. Qed.
Print Assumptions C113_coordinates_memory.

(** C113. If the objective only looks at the first d coordinates, these evolve as in a session of dimension d: further coordinates (and the draws for them) have no
    influence on the rest of the session. *)
Theorem C113_irrelevant : forall (f f' : vec -> fl R) k (pp pp' : vec -> vec) co b partial cat (ks : list (crit R vec)) save d e, k <> NIso -> Forall no_norm ks -> finite_corr co -> finite_obj d f' ->
  (forall p, length p = (d + e)%nat -> f (floats p) = f' (floats (firstn d p))) ->
  (forall p, length p = (d + e)%nat -> exists q, pp (floats p) = floats q /\ length q = (d + e)%nat /\ pp' (floats (firstn d p)) = floats (firstn d q)) ->
  forall x0 checked alpha sigma lamda dt perm0 names extra sv l, sensible (d + e) b x0 alpha sigma lamda dt perm0 sv -> sensible_calls (d + e) (length x0) (shape1 x0) l ->
  same_outcome (mapped_but_norms (real_point (d + e)) (firstn d) (firstn d))
    (cbo_session (cbo_cfg f k pp co b partial cat ks save) x0 checked alpha sigma lamda dt perm0 names extra sv l)
    (cbo_session (cbo_cfg f' k pp' co b partial cat ks save) (map (map (firstn d)) x0) checked alpha sigma lamda dt perm0 names extra sv (map (change_draws (firstn d)) l)).
Proof. exact irrelevant_cbo. Qed.
Print Assumptions C113_irrelevant.
Example C113_irrelevant_example : forall n, Forall no_norm ncrit /\ finite_corr NoCorr /\ finite_obj 2 sqf /\ (forall p, length p = 3%nat -> flat_sqf (floats p) = sqf (floats (firstn 2 p))) /\
  sensible 3 2 tx0 (Fin 5) (Fin 1) (Fin 1) (Fin (/ 10)) (fun _ => [2; 0; 1]%nat) None /\ sensible_calls 3 (length tx0) (shape1 tx0) (bcalls torc n) /\
  map (map (firstn 2)) tx0 = cx0 /\ exists s, bsession (bcfg flat_sqf NAniso ncrit) tx0 (bcalls torc n) = Ok s.
Proof. exact ex_flat. Qed.

(** C113. The same for CBOMemory and PSO. *)
Theorem C113_irrelevant_memory : forall kd (f f' : vec -> fl R) k (pp pp' : vec -> vec) co b partial cat (ks : list (crit R vec)) save d e, k <> NIso -> Forall no_norm ks -> finite_corr co -> finite_obj d f' ->
  (forall p, length p = (d + e)%nat -> f (floats p) = f' (floats (firstn d p))) ->
  (forall p, length p = (d + e)%nat -> exists q, pp (floats p) = floats q /\ length q = (d + e)%nat /\ pp' (floats (firstn d p)) = floats (firstn d q)) ->
  forall x0 checked alpha sigma lamda dt perm0 names extra sv l, sensible (d + e) b x0 alpha sigma lamda dt perm0 sv -> finite_calls kd (d + e) (length x0) (shape1 x0) dt l ->
  same_outcome (mem_mapped_but_norms (real_point (d + e)) (firstn d) (firstn d))
    (mem_session kd (cbo_cfg f k pp co b partial cat ks save) x0 checked alpha sigma lamda dt perm0 names extra sv l)
    (mem_session kd (cbo_cfg f' k pp' co b partial cat ks save) (map (map (firstn d)) x0) checked alpha sigma lamda dt perm0 names extra sv (map (map_draws (firstn d)) l)).
Proof. exact irrelevant_mem. Qed.
Print Assumptions C113_irrelevant_memory.

(** C113 fails for isotropic noise: the norm of the drift sees all coordinates, so a coordinate which the objective ignores changes how the others move. *)
Theorem C113_isotropic_refuted : exists (f f' : vec -> fl R) x0 l s s',
  finite_obj 1 f' /\ (forall p, length p = 2%nat -> f (floats p) = f' (floats (firstn 1 p))) /\
  sensible 2 2 x0 (Fin 1) (Fin 1) (Fin 1) (Fin 1) (fun _ => [0; 1]%nat) None /\ sensible_calls 2 (length x0) (shape1 x0) l /\
  cbo_session (cbo_cfg f NIso (fun v => v) NoCorr 2 true false [] false) x0 false (Fin 1) (Fin 1) (Fin 1) (Fin 1) (fun _ => [0; 1]%nat) None [] None l = Ok s /\
  cbo_session (cbo_cfg f' NIso (fun v => v) NoCorr 2 true false [] false) (map (map (firstn 1)) x0) false (Fin 1) (Fin 1) (Fin 1) (Fin 1) (fun _ => [0; 1]%nat) None [] None (map (change_draws (firstn 1)) l) = Ok s' /\
  s_x s' <> map (map (firstn 1)) (s_x s).
Proof. exact iso_refuted. Qed.
Print Assumptions C113_isotropic_refuted.

