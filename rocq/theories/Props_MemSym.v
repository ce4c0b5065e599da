(** * Properties: symmetries of whole sessions with CBOMemory and PSO (C111) *)
From Coq Require Import String List Arith Bool Reals Lia Lra.
From Verif Require Import Scalar Np State Pdyn TermSpec RVec ConsSpec Cbo CboSpec TwinSpec Memory MemSpec SimSpec MemSymSpec SymLaws ExCbo ExMemRun ExMemSym.
Import ListNotations.
Open Scope R_scope.

(** C111. Adding a constant to the objective (and to the energy tolerance) adds it to all energies of a session and changes nothing else:
    either both sessions raise the same exception, or both end and positions, memories, velocities, counters, active runs and the history agree.
    This holds for mini-batches, correction terms, all noise models and every sequence of calls. *)
Theorem C111_energy_shift : forall kd (f : vec -> fl R) k co b partial cat ks save d x0 checked alpha sigma lamda dt perm0 names extra sv l,
  Forall builtin ks -> finite_corr co -> finite_obj d f -> sensible d b x0 alpha sigma lamda dt perm0 sv -> finite_calls kd d (length x0) (shape1 x0) dt l ->
  forall pp h, (forall p, length p = d -> exists q, pp (floats p) = floats q /\ length q = d) ->
  same_outcome (mem_mapped (real_point d) (fun v => v) (fun v => v) (add_energy h))
    (mem_session kd (cbo_cfg f k pp co b partial cat ks save) x0 checked alpha sigma lamda dt perm0 names extra sv l)
    (mem_session kd (cbo_cfg (fun v => add_energy h (f v)) k pp co b partial cat (map (image_crit (add_energy h)) ks) save) x0 checked alpha sigma lamda dt perm0 names extra sv l).
Proof. intros; apply mem_energy_shift; auto. Qed.
Print Assumptions C111_energy_shift.
Example C111_energy_shift_example : forall kd n, Forall builtin scrit /\ finite_corr (Heavi sfac) /\ finite_obj 2 sqf /\
  sensible 2 3 cx0 (Fin 5) (Fin 1) (Fin 1) (Fin (/ 10)) (fun _ => [2; 0; 1]%nat) None /\ finite_calls kd 2 (length cx0) (shape1 cx0) (Fin (/ 10)) (scalls n) /\
  exists ms, ssession kd (scfg sqf NAniso scrit) cx0 (scalls n) = Ok ms.
Proof. exact ex_shift. Qed.

(** C111. Moving the objective, the post-processing and the initial particles by t moves positions, memories and consensus points of the
    session by t; drifts, velocities, energies, counters, decisions and exceptions stay the same. *)
Theorem C111_translation : forall kd (f : vec -> fl R) k co b partial cat ks save d x0 checked alpha sigma lamda dt perm0 names extra sv l,
  Forall builtin ks -> finite_corr co -> finite_obj d f -> sensible d b x0 alpha sigma lamda dt perm0 sv -> finite_calls kd d (length x0) (shape1 x0) dt l ->
  forall f' t pp pp', length t = d -> (forall p, length p = d -> f' (floats (vadd p t)) = f (floats p)) ->
  (forall p, length p = d -> exists q, pp (floats p) = floats q /\ length q = d /\ pp' (floats (vadd p t)) = floats (vadd q t)) ->
  same_outcome (mem_mapped (real_point d) (translate t) (fun v => v) (fun e => e))
    (mem_session kd (cbo_cfg f k pp co b partial cat ks save) x0 checked alpha sigma lamda dt perm0 names extra sv l)
    (mem_session kd (cbo_cfg f' k pp' co b partial cat ks save) (map (map (translate t)) x0) checked alpha sigma lamda dt perm0 names extra sv l).
Proof. intros; apply mem_translation; auto. Qed.
Print Assumptions C111_translation.
Example C111_translation_example : length [5; 6] = 2%nat /\ (forall p, length p = 2%nat -> moved_sqf (floats (vadd p [5; 6])) = sqf (floats p)) /\
  (forall p, length p = 2%nat -> exists q, box (floats p) = floats q /\ length q = 2%nat /\ moved_box (floats (vadd p [5; 6])) = floats (vadd q [5; 6])).
Proof. exact ex_translation. Qed.

(** C111. With constant or isotropic noise, turning the objective, the post-processing, the initial particles and all draws by an isometry
    turns the session. *)
Theorem C111_rotation : forall kd (f : vec -> fl R) k co b partial cat ks save d x0 checked alpha sigma lamda dt perm0 names extra sv l,
  Forall builtin ks -> finite_corr co -> finite_obj d f -> sensible d b x0 alpha sigma lamda dt perm0 sv -> finite_calls kd d (length x0) (shape1 x0) dt l ->
  forall f' A pp pp', isometry d A -> k <> NAniso -> (forall p, length p = d -> f' (floats (map (fun r => dot r p) A)) = f (floats p)) ->
  (forall p, length p = d -> exists q, pp (floats p) = floats q /\ length q = d /\ pp' (floats (map (fun r => dot r p) A)) = floats (map (fun r => dot r q) A)) ->
  same_outcome (mem_mapped (real_point d) (rotate A) (rotate A) (fun e => e))
    (mem_session kd (cbo_cfg f k pp co b partial cat ks save) x0 checked alpha sigma lamda dt perm0 names extra sv l)
    (mem_session kd (cbo_cfg f' k pp' co b partial cat ks save) (map (map (rotate A)) x0) checked alpha sigma lamda dt perm0 names extra sv (map (map_draws (rotate A)) l)).
Proof. intros; apply mem_rotation; auto. Qed.
Print Assumptions C111_rotation.
Example C111_rotation_example : isometry 2 turn /\ (forall p, length p = 2%nat -> sqf (floats (map (fun r => dot r p) turn)) = sqf (floats p)) /\
  (forall p, length p = 2%nat -> exists q, box (floats p) = floats q /\ length q = 2%nat /\ box (floats (map (fun r => dot r p) turn)) = floats (map (fun r => dot r q) turn)).
Proof. exact ex_rotation. Qed.
