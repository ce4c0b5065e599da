(** * Properties: whole runs of PolarCBO (C107) *)
From Coq Require Import String List Arith Bool Lia Reals Lra.
From Verif Require Import Scalar Np NpFacts State Pdyn PdynOk Exec RVec ConsSpec Consensus Cbo CboSpec TermSpec TwinSpec PolarSpec Polar PolarRun PolarRunSpec PolarSym ExCbo ExPolarRun.
Import ListNotations.
Open Scope R_scope.

(** C107. With kappa = +inf a PolarCBO run is a CBO run, for each of the four kernels, both kernel factor modes, all noise models and batch settings
    in which every updated particle has a consensus point: all positions, energies, best values, counters and active runs agree at every
    moment; the consensus is the one of CBO, repeated for every particle. *)
Theorem C107_infinite_kappa : forall kn md k b partial cat ks save d (f : vec -> fl R) (pp : vec -> vec) s s', Forall builtin ks -> finite_obj d f ->
  (forall p, length p = d -> exists q, pp (floats p) = floats q /\ length q = d) ->
  paired (fun v => v) (cbo_cfg f k pp NoCorr b partial cat ks save) (polar_cfg kn PInf md f k pp b partial cat ks save)
    (fun z => z) (fun t => (finite_alpha t /\ finite_parameters t /\ batches_fit b partial t) /\ (forall row v, In row (s_x t) -> In v row -> exists p, v = floats p /\ length p = d))
    (finite_draws d) s s' -> same_run (fun v => v) (fun e => e) b s s'.
Proof. exact polar_is_cbo. Qed.
Print Assumptions C107_infinite_kappa.

(** C107. Adding a constant to the objective changes the energies by that constant and nothing else. *)
Theorem C107_energy_shift : forall kn kappa md k b partial cat ks save d (f : vec -> fl R) (pp : vec -> vec) h s s',
  Forall builtin ks -> kappa_ok kappa -> finite_obj d f ->
  (forall p, length p = d -> exists q, pp (floats p) = floats q /\ length q = d) ->
  paired (fun v => v) (polar_cfg kn kappa md f k pp b partial cat ks save)
    (polar_cfg kn kappa md (fun v => add_energy h (f v)) k pp b partial cat (map (image_crit (add_energy h)) ks) save)
    (fun z => z) (polar_state d (positive_mode md) b partial) (finite_draws d) s s' ->
  same_run (fun v => v) (add_energy h) b s s'.
Proof. exact polar_shift. Qed.
Print Assumptions C107_energy_shift.

(** C107. Translating the objective and the initial ensemble translates the whole run. *)
Theorem C107_translation : forall kn kappa md k b partial cat ks save d (f f' : vec -> fl R) t s s',
  Forall builtin ks -> kappa_ok kappa -> finite_obj d f -> length t = d ->
  (forall p, length p = d -> f' (floats (vadd p t)) = f (floats p)) ->
  paired (translate t) (polar_cfg kn kappa md f k (fun v => v) b partial cat ks save) (polar_cfg kn kappa md f' k (fun v => v) b partial cat ks save)
    (fun z => z) (polar_state d (positive_mode md) b partial) (finite_draws d) s s' ->
  same_run (translate t) (fun e => e) b s s'.
Proof. exact polar_translation. Qed.
Print Assumptions C107_translation.

(** C107. So does an isometry with isotropic or constant noise, if the draws are mapped too. *)
Theorem C107_rotation : forall kn kappa md k b partial cat ks save d (f f' : vec -> fl R) A s s',
  Forall builtin ks -> kappa_ok kappa -> finite_obj d f -> isometry d A -> k <> NAniso ->
  (forall p, length p = d -> f' (floats (map (fun r => dot r p) A)) = f (floats p)) ->
  paired (rotate A) (polar_cfg kn kappa md f k (fun v => v) b partial cat ks save) (polar_cfg kn kappa md f' k (fun v => v) b partial cat ks save)
    (rotate A) (polar_state d (positive_mode md) b partial) (finite_draws d) s s' ->
  same_run (rotate A) (fun e => e) b s s'.
Proof. exact polar_rotation. Qed.
Print Assumptions C107_rotation.

Example C107_plain_case : exists s s1 s1', let c := cbo_cfg sqf NAniso (fun v => v) NoCorr 2 true false [CMaxIt (Some 5%nat)] true in
  cinit c 1 1 (/ 2) 3 = Ok s /\ step c corc s = Ok s1 /\
  paired (fun v => v) c (epc sqf KInvQuad PInf NAniso [CMaxIt (Some 5%nat)]) (fun z => z)
    (fun t => (finite_alpha t /\ finite_parameters t /\ batches_fit 2 true t) /\ (forall row v, In row (s_x t) -> In v row -> exists p, v = floats p /\ length p = 2%nat))
    (finite_draws 2) s1 s1'.
Proof. exact ex_polar_plain. Qed.

Example C107_shift_case : exists s s1 s1', let c := epc sqf KGauss (Fin 1) NAniso [CMaxIt (Some 5%nat)] in
  cinit c 1 1 (/ 2) 3 = Ok s /\ step c corc s = Ok s1 /\
  paired (fun v => v) c (epc (fun v => add_energy 7 (sqf v)) KGauss (Fin 1) NAniso (map (image_crit (add_energy 7)) [CMaxIt (Some 5%nat)]))
    (fun z => z) (polar_state 2 true 2 true) (finite_draws 2) s1 s1'.
Proof. exact ex_polar_shift. Qed.

Example C107_translation_case : exists f' s s1 s1', let c := epc sqf KConst (Fin 2) NAniso [CMaxIt (Some 5%nat)] in
  (forall p, length p = 2%nat -> f' (floats (vadd p [1; -2])) = sqf (floats p)) /\
  cinit c 1 1 (/ 2) 3 = Ok s /\ step c corc s = Ok s1 /\
  paired (translate [1; -2]) c (epc f' KConst (Fin 2) NAniso [CMaxIt (Some 5%nat)]) (fun z => z) (polar_state 2 true 2 true) (finite_draws 2) s1 s1'.
Proof. exact ex_polar_translation. Qed.

Example C107_rotation_case : exists s s1 s1', let c := epc sqf KLaplace (Fin 1) NIso [CMaxIt (Some 5%nat)] in let A := [[0; -1]; [1; 0]] in
  isometry 2 A /\ (forall p, length p = 2%nat -> sqf (floats (map (fun r => dot r p) A)) = sqf (floats p)) /\
  cinit c 1 1 (/ 2) 3 = Ok s /\ step c corc s = Ok s1 /\
  paired (rotate A) c c (rotate A) (polar_state 2 true 2 true) (finite_draws 2) s1 s1'.
Proof. exact ex_polar_rotation. Qed.
