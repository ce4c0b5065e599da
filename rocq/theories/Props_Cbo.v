(** * C35 - C38, C72: CBO over the reals *)
From Coq Require Import List Arith Reals Lra Lia.
From Verif Require Import Scalar Np State Pdyn Exec TermSpec RVec Consensus ConsSpec PostProc Cbo CboSpec CboFacts AbsorbFacts CorrFacts TwinSpec SymFacts ExCbo.
Import ListNotations.
Open Scope R_scope.

(** C35. Without noise, n steps multiply all pairwise differences by (1 - lamda*dt)^n (the
    post-processing leaves the points alone). *)
Theorem C35_contraction : forall f k pp b partial cat ks save s log m d n s' X la dt,
  let c := cbo_cfg f k pp NoCorr b partial cat ks save in
  exec c s log -> finite_obj d f -> finite_alpha s -> parameters la dt 0 s -> b = s_N s -> ensemble_at s m d X ->
  (forall p, length p = d -> pp (floats p) = floats p) -> steps_active c m d s n s' ->
  exists Y, ensemble_at s' m d Y /\ diffs ((1 - la * dt) ^ n) X Y.
Proof. exact noise_free_contraction. Qed.
Print Assumptions C35_contraction.

(** C35. With 0 <= lamda*dt <= 1 the particles stay in every box of the initial ensemble, and the
    contraction holds for every post-processing that leaves points of the box alone. *)
Theorem C35_box : forall f k pp b partial cat ks save s log m d n s' X la dt lo hi,
  let c := cbo_cfg f k pp NoCorr b partial cat ks save in
  exec c s log -> finite_obj d f -> finite_alpha s -> parameters la dt 0 s -> b = s_N s -> ensemble_at s m d X ->
  0 <= la * dt <= 1 -> (forall p, length p = d -> in_box d lo hi p -> pp (floats p) = floats p) ->
  (forall p, In p X -> in_box d lo hi p) -> steps_active c m d s n s' ->
  exists Y, ensemble_at s' m d Y /\ (forall p, In p Y -> in_box d lo hi p) /\ diffs ((1 - la * dt) ^ n) X Y.
Proof. exact noise_free_box. Qed.
Print Assumptions C35_box.

(** the default post-processing is of this kind for ensembles within its threshold *)
Theorem C35_default_post : forall t p d, 0 <= t <= float_max -> length p = d -> in_box d (fun _ => - t) (fun _ => t) p ->
  pp_point t false (floats p) = floats p.
Proof. exact pp_point_fixes. Qed.
Print Assumptions C35_default_post.

(** C36. If all particles of a run coincide (isotropic or anisotropic noise), they stay there: for
    all draws, batches, further steps, termination checks, parameter changes, resets. *)
Theorem C36_absorbing : forall f k pp b partial cat ks save s log m p s',
  let c := cbo_cfg f k pp NoCorr b partial cat ks save in
  exec c s log -> finite_alpha s -> finite_parameters s -> k <> NConst -> (exists y, f (floats p) = Fin y) ->
  pp (floats p) = floats p -> all_at s m p -> later c (length p) s s' -> all_at s' m p.
Proof. exact absorbing. Qed.
Print Assumptions C36_absorbing.

(** C36. With anisotropic noise a coordinate on which all particles agree never changes. *)
Theorem C36_agreed : forall f k pp b partial cat ks save s log m d j v s',
  let c := cbo_cfg f k pp NoCorr b partial cat ks save in
  exec c s log -> finite_alpha s -> finite_parameters s -> k = NAniso -> finite_obj d f -> (j < d)%nat ->
  (forall p, length p = d -> coord j p = v -> exists q, pp (floats p) = floats q /\ length q = d /\ coord j q = v) ->
  agreed s m d j v -> later c d s s' -> agreed s' m d j v.
Proof. exact agreed_forever. Qed.
Print Assumptions C36_agreed.

Theorem C36_default_post : forall t p d j, 0 <= t <= float_max -> length p = d -> (j < d)%nat -> - t <= coord j p <= t ->
  exists q, pp_point t false (floats p) = floats q /\ length q = d /\ coord j q = coord j p.
Proof. exact pp_point_coord. Qed.
Print Assumptions C36_default_post.

(** C36 fails for constant noise: each particle moves by sigma * sqrt(dt) * draw. *)
Theorem C36_constant_noise_refuted : forall f b partial cat ks save s log o s' m d p la dt sg kk n z,
  let c := cbo_cfg f NConst (fun v => v) NoCorr b partial cat ks save in
  exec c s log -> perms_valid o s -> finite_draws d o -> finite_obj d f ->
  finite_alpha s -> parameters la dt sg s -> b = s_N s -> step c o s = Ok s' -> nth_error (s_active s) kk = Some m -> length p = d ->
  all_at s m p -> (n < s_N s)%nat -> o_z o kk n = floats z -> length z = d ->
  exists xr', nth_error (s_x s') m = Some xr' /\ nth_error xr' n = Some (floats (vadd p (vscal (sg * sqrt dt) z))).
Proof. exact constant_noise_moves. Qed.
Print Assumptions C36_constant_noise_refuted.

(** C37. Heaviside correction, all runs active: particles with energy above that of the consensus
    move as without correction, the others (multiplicative noise) do not move. *)
Theorem C37_heavi_side : forall f k pp b partial cat ks save s log o m d X la dt sg,
  let c := cbo_cfg f k pp (Heavi heavi_side_fac) b partial cat ks save in
  exec c s log -> perms_valid o s -> finite_draws d o -> finite_obj d f -> finite_alpha s -> parameters la dt sg s ->
  length (s_active s) = s_M s -> (b = s_N s \/ partial = false) -> ensemble_at s m d X ->
  exists s' cp y E xr', step c o s = Ok s' /\ length cp = d /\ f (floats cp) = Fin y /\
    (exists a Xb, Xb <> [] /\ (forall p, In p Xb -> In p X) /\ (b = s_N s -> Xb = X) /\
       cp = gibbs_point a (map f (map floats Xb)) d Xb) /\
    nth_error (s_energy s') m = Some E /\ length E = s_N s /\ (b = s_N s -> E = map f (map floats X)) /\
    nth_error (s_x s') m = Some xr' /\ length xr' = s_N s /\
    forall n x e, nth_error X n = Some x -> nth_error E n = Some e ->
      exists z, o_z o m n = floats z /\ length z = d /\
        (fltb (Fin y) e = true -> nth_error xr' n = Some (pp (floats (rmove k la dt sg cp x z)))) /\
        (fltb (Fin y) e = false -> k <> NConst -> nth_error xr' n = Some (pp (floats x))).
Proof. exact heavi_side_moves. Qed.
Print Assumptions C37_heavi_side.

(** C37. Regularised Heaviside correction: the drift is scaled by a factor in (0,1), above 1/2
    iff the particle is worse than the consensus. *)
Theorem C37_heavi_side_reg : forall f k pp cat ks save eps s log o m d X la dt sg b partial,
  let c := cbo_cfg f k pp (Heavi (heavi_reg_fac eps)) b partial cat ks save in
  0 < eps -> exec c s log -> perms_valid o s -> finite_draws d o -> finite_obj d f -> finite_alpha s -> parameters la dt sg s ->
  length (s_active s) = s_M s -> b = s_N s -> ensemble_at s m d X ->
  exists s' a cp y xr', step c o s = Ok s' /\ cp = gibbs_point a (map f (map floats X)) d X /\ f (floats cp) = Fin y /\
    nth_error (s_x s') m = Some xr' /\ length xr' = s_N s /\
    forall n x, nth_error X n = Some x -> exists z e g, o_z o m n = floats z /\ length z = d /\ f (floats x) = Fin e /\
      nth_error xr' n = Some (pp (floats (rmove_along k la dt sg (vscal g (vsub x cp)) x z))) /\
      0 < g < 1 /\ (/ 2 < g <-> y < e).
Proof. exact heavi_reg_moves. Qed.
Print Assumptions C37_heavi_side_reg.

(** C37. For e <> y the factor tends to the Heaviside factor as eps -> 0. *)
Theorem C37_limit : forall e y delta, e <> y -> 0 < delta -> exists e0, 0 < e0 /\ forall eps, 0 < eps < e0 ->
  exists g, heavi_reg_fac eps (fsub (Fin e) (Fin y)) = Fin g /\ Rabs (g - (if Rltb y e then 1 else 0)) < delta.
Proof. exact reg_limit_model. Qed.
Print Assumptions C37_limit.

(** C37. Infinite differences are scaled as by the Heaviside correction, for every eps. *)
Theorem C37_infinite : forall eps, 0 < eps ->
  heavi_reg_fac eps PInf = Fin 1 /\ heavi_reg_fac eps NInf = Fin 0 /\ heavi_side_fac PInf = Fin 1 /\ heavi_side_fac NInf = Fin 0.
Proof. exact heavi_infinite. Qed.
Print Assumptions C37_infinite.

(** C37 fails in the limit for particles level with the consensus: the regularised factor is 1/2
    for every eps, the Heaviside factor is 0. *)
Theorem C37_level_refuted : forall eps y, 0 < eps ->
  heavi_reg_fac eps (fsub (Fin y) (Fin y)) = Fin (/ 2) /\ heavi_side_fac (fsub (Fin y) (Fin y)) = Fin 0.
Proof. exact reg_level_model. Qed.
Print Assumptions C37_level_refuted.

(** C38. Adding a constant to the objective (and to the energy tolerance) changes nothing but the
    energies: the same construction, steps, checks, parameter changes and resets give the same
    positions, consensus points, counters, active runs. *)
Theorem C38_energy_shift : forall k b partial cat ks save d f pp h s s',
  Forall builtin ks -> finite_obj d f ->
  (forall p, length p = d -> exists q, pp (floats p) = floats q /\ length q = d) ->
  paired (fun v => v) (cbo_cfg f k pp NoCorr b partial cat ks save)
    (cbo_cfg (fun v => add_energy h (f v)) k pp NoCorr b partial cat (map (image_crit (add_energy h)) ks) save)
    (fun z => z) (finite_state d) (finite_draws d) s s' ->
  image (fun v => v) (add_energy h) s s'.
Proof. exact energy_shift. Qed.
Print Assumptions C38_energy_shift.

(** C38. Translating objective and initial ensemble translates the whole trajectory. *)
Theorem C38_translation : forall k b partial cat ks save d f f' t s s',
  Forall builtin ks -> finite_obj d f -> length t = d ->
  (forall p, length p = d -> f' (floats (vadd p t)) = f (floats p)) ->
  paired (translate t) (cbo_cfg f k (fun v => v) NoCorr b partial cat ks save)
    (cbo_cfg f' k (fun v => v) NoCorr b partial cat ks save) (fun z => z) (finite_state d) (finite_draws d) s s' ->
  image (translate t) (fun e => e) s s'.
Proof. exact translation. Qed.
Print Assumptions C38_translation.

(** C72. With constant or isotropic noise, applying an isometry to objective, initial ensemble and
    draws applies it to the whole trajectory. *)
Theorem C72_rotation : forall k b partial cat ks save d f f' A s s',
  Forall builtin ks -> finite_obj d f -> isometry d A -> k <> NAniso ->
  (forall p, length p = d -> f' (floats (map (fun r => dot r p) A)) = f (floats p)) ->
  paired (rotate A) (cbo_cfg f k (fun v => v) NoCorr b partial cat ks save)
    (cbo_cfg f' k (fun v => v) NoCorr b partial cat ks save) (rotate A) (finite_state d) (finite_draws d) s s' ->
  image (rotate A) (fun e => e) s s'.
Proof. exact rotation. Qed.
Print Assumptions C72_rotation.

(** ** Examples: the hypotheses hold for a concrete dynamic with objective |x|^2 *)
Definition ex_c k pp co b := cbo_cfg sqf k pp co b true false [CMaxIt (Some 5%nat)] true.

Example C35_hypotheses : forall n, exists s log s', let c := ex_c NIso (fun v => v) NoCorr 3 in
  exec c s log /\ finite_obj 2 sqf /\ finite_alpha s /\ parameters 1 (/ 2) 0 s /\ 3%nat = s_N s /\ ensemble_at s 0 2 cX /\
  steps_active c 0 2 s n s' /\ (forall p, In p cX -> in_box 2 (fun _ => -1) (fun _ => 2) p).
Proof.
  intros n. destruct (cinit_ok (ex_c NIso (fun v => v) NoCorr 3) 1 1 (/ 2) 0) as (s & _ & E & _ & HN & HA & P & FA & HP & EN & _); [cbn; lia|lra|].
  destruct (csteps sqf NIso (fun v => v) 3 true false [CMaxIt (Some 5%nat)] true s [] 0%nat E P ltac:(rewrite HA; left; auto) n) as (s' & S & _).
  exists s, [], s'. cbn zeta. split; [exact E|]. split; [apply sqf_finite|]. split; [exact FA|]. split; [exact HP|]. split; [congruence|]. split; [exact EN|]. split; [exact S|].
  intros p [<-|[<-|[<-|[]]]] i Hi; destruct i as [|[|i]]; try lia; unfold coord; cbn; lra.
Qed.

Example C36_hypotheses : exists s log s1, let c := ex_c NIso (fun v => v) NoCorr 2 in
  exec c s log /\ finite_alpha s /\ finite_parameters s /\ (exists y, sqf (floats [3; 4]) = Fin y) /\ all_at s 1 [3; 4] /\
  In 1%nat (s_active s) /\ step c corc s = Ok s1 /\ later c 2 s s1.
Proof.
  destruct (cinit_ok (ex_c NIso (fun v => v) NoCorr 2) 1 1 (/ 2) 3) as (s & _ & E & _ & HN & HA & P & FA & HP & EN & AA & _); [cbn; lia|lra|].
  destruct (clater sqf NIso (fun v => v) 2 true false [CMaxIt (Some 5%nat)] true s [] E P) as (s1 & S & L).
  exists s, [], s1. cbn zeta. split; [exact E|]. split; [exact FA|]. split; [exists 1, (/ 2), 3; exact HP|].
  split; [exact (sqf_finite 2 [3; 4] eq_refl)|]. split; [exact AA|]. split; [rewrite HA; right; left; auto|]. split; [exact S|exact L].
Qed.

(** the second coordinate of run 0 of the example is the same for all particles *)
Example C36_agreed_hypotheses : exists s log s1, let c := ex_c NAniso (fun v => v) NoCorr 2 in
  exec c s log /\ agreed s 0 2 1 1 /\ later c 2 s s1 /\ step c corc s = Ok s1.
Proof.
  destruct (cinit_ok (ex_c NAniso (fun v => v) NoCorr 2) 1 1 (/ 2) 3) as (s & _ & E & _ & HN & HA & P & FA & HP & EN & AA & _); [cbn; lia|lra|].
  destruct (clater sqf NAniso (fun v => v) 2 true false [CMaxIt (Some 5%nat)] true s [] E P) as (s1 & S & L).
  exists s, [], s1. cbn zeta. split; [exact E|]. split; [|split; [exact L|exact S]].
  exists cX. split; [exact EN|]. intros p [<-|[<-|[<-|[]]]]; reflexivity.
Qed.

(** constant noise does tear the concentrated run of the example apart *)
Example C36_constant_noise_example : exists s log s', let c := ex_c NConst (fun v => v) NoCorr 3 in
  exec c s log /\ all_at s 1 [3; 4] /\ step c corc s = Ok s' /\ ~ all_at s' 1 [3; 4].
Proof.
  destruct (cinit_ok (ex_c NConst (fun v => v) NoCorr 3) 1 1 1 3) as (s & _ & E & _ & HN & HA & P & FA & HP & EN & AA & _); [cbn; lia|lra|].
  destruct (clater sqf NConst (fun v => v) 3 true false [CMaxIt (Some 5%nat)] true s [] E P) as (s1 & S & L).
  exists s, [], s1. cbn zeta. split; [exact E|]. split; [exact AA|]. split; [exact S|]. intros Hc.
  destruct (C36_constant_noise_refuted sqf 3 true false [CMaxIt (Some 5%nat)] true s [] corc s1 1 2 [3; 4] 1 1 3 1 0 [INR 0 + 1; -1]
    E P corc_finite (sqf_finite 2) FA HP (eq_sym HN) S ltac:(rewrite HA; reflexivity) eq_refl AA ltac:(rewrite HN; lia) eq_refl eq_refl)
    as (xr & H1 & H2).
  unfold all_at in Hc. rewrite Hc in H1. injection H1 as <-. destruct (s_N s1); [discriminate|]. cbn in H2. injection H2 as H _.
  rewrite sqrt_1 in H. lra.
Qed.

Example C37_hypotheses : exists s log, let c := ex_c NIso (fun v => v) (Heavi heavi_side_fac) 3 in
  exec c s log /\ perms_valid corc s /\ finite_draws 2 corc /\ finite_obj 2 sqf /\ finite_alpha s /\ parameters 1 (/ 2) 3 s /\
  length (s_active s) = s_M s /\ 3%nat = s_N s /\ ensemble_at s 0 2 cX.
Proof.
  destruct (cinit_ok (ex_c NIso (fun v => v) (Heavi heavi_side_fac) 3) 1 1 (/ 2) 3) as (s & _ & E & HM & HN & HA & P & FA & HP & EN & AA & _); [cbn; lia|lra|].
  exists s, []. cbn zeta. split; [exact E|]. split; [exact P|]. split; [exact corc_finite|]. split; [apply sqf_finite|]. split; [exact FA|]. split; [exact HP|].
  split; [rewrite HA, HM; reflexivity|]. split; [congruence|exact EN].
Qed.

Example C37_reg_hypotheses : exists s log, let c := ex_c NIso (fun v => v) (Heavi (heavi_reg_fac (/ 1000))) 3 in
  exec c s log /\ perms_valid corc s /\ finite_draws 2 corc /\ finite_obj 2 sqf /\ finite_alpha s /\ parameters 1 (/ 2) 3 s /\
  length (s_active s) = s_M s /\ 3%nat = s_N s /\ ensemble_at s 0 2 cX.
Proof.
  destruct (cinit_ok (ex_c NIso (fun v => v) (Heavi (heavi_reg_fac (/ 1000))) 3) 1 1 (/ 2) 3) as (s & _ & E & HM & HN & HA & P & FA & HP & EN & AA & _); [cbn; lia|lra|].
  exists s, []. cbn zeta. split; [exact E|]. split; [exact P|]. split; [exact corc_finite|]. split; [apply sqf_finite|]. split; [exact FA|]. split; [exact HP|].
  split; [rewrite HA, HM; reflexivity|]. split; [congruence|exact EN].
Qed.

Example C38_hypotheses : exists s s1 s1', let c := ex_c NAniso (fun v => v) NoCorr 2 in
  cinit c 1 1 (/ 2) 3 = Ok s /\ step c corc s = Ok s1 /\
  paired (fun v => v) c (cbo_cfg (fun v => add_energy 7 (sqf v)) NAniso (fun v => v) NoCorr 2 true false (map (image_crit (add_energy 7)) [CMaxIt (Some 5%nat)]) true)
    (fun z => z) (finite_state 2) (finite_draws 2) s1 s1'.
Proof.
  set (c' := cbo_cfg (fun v => add_energy 7 (sqf v)) NAniso (fun v => v) NoCorr 2 true false (map (image_crit (add_energy 7)) [CMaxIt (Some 5%nat)]) true).
  destruct (cinit_ok (ex_c NAniso (fun v => v) NoCorr 2) 1 1 (/ 2) 3) as (s & I & _); [cbn; lia|lra|].
  destruct (cpaired (fun v => v) (fun z => z) (ex_c NAniso (fun v => v) NoCorr 2) c' 1 1 (/ 2) 3 s _
    eq_refl eq_refl eq_refl (fun _ _ _ => eq_refl) (fun _ _ _ => eq_refl) ltac:(cbn; lia) ltac:(lra) I eq_refl) as (s1 & s1' & S & Pa).
  exists s, s1, s1'. auto.
Qed.

Example C38_translation_hypotheses : exists f' s s1 s1', let c := ex_c NAniso (fun v => v) NoCorr 2 in
  (forall p, length p = 2%nat -> f' (floats (vadd p [1; -2])) = sqf (floats p)) /\
  cinit c 1 1 (/ 2) 3 = Ok s /\ step c corc s = Ok s1 /\
  paired (translate [1; -2]) c (cbo_cfg f' NAniso (fun v => v) NoCorr 2 true false [CMaxIt (Some 5%nat)] true)
    (fun z => z) (finite_state 2) (finite_draws 2) s1 s1'.
Proof.
  set (f' := fun v : vec => sqf (translate [-1; 2] v)). exists f'.
  destruct (cinit_ok (ex_c NAniso (fun v => v) NoCorr 2) 1 1 (/ 2) 3) as (s & I & _); [cbn; lia|lra|].
  destruct (cpaired (translate [1; -2]) (fun z => z) (ex_c NAniso (fun v => v) NoCorr 2) (cbo_cfg f' NAniso (fun v => v) NoCorr 2 true false [CMaxIt (Some 5%nat)] true) 1 1 (/ 2) 3 s _
    eq_refl eq_refl eq_refl (fun _ _ _ => eq_refl) (fun _ _ _ => eq_refl) ltac:(cbn; lia) ltac:(lra) I eq_refl) as (s1 & s1' & S & Pa).
  exists s, s1, s1'. split; [|auto]. intros p Hp. destruct p as [|a [|b [|? ?]]]; try discriminate. unfold f', sqf. cbn. f_equal; ring.
Qed.

(** rotation by a quarter turn *)
Example C72_hypotheses : exists s s1 s1', let c := ex_c NIso (fun v => v) NoCorr 2 in let A := [[0; -1]; [1; 0]] in
  isometry 2 A /\ (forall p, length p = 2%nat -> sqf (floats (map (fun r => dot r p) A)) = sqf (floats p)) /\
  cinit c 1 1 (/ 2) 3 = Ok s /\ step c corc s = Ok s1 /\
  paired (rotate A) c c (rotate A) (finite_state 2) (finite_draws 2) s1 s1'.
Proof.
  destruct (cinit_ok (ex_c NIso (fun v => v) NoCorr 2) 1 1 (/ 2) 3) as (s & I & _); [cbn; lia|lra|].
  destruct (cpaired (rotate [[0; -1]; [1; 0]]) (rotate [[0; -1]; [1; 0]]) (ex_c NIso (fun v => v) NoCorr 2) (ex_c NIso (fun v => v) NoCorr 2) 1 1 (/ 2) 3 s _
    eq_refl eq_refl eq_refl (fun _ _ _ => eq_refl) (fun _ _ _ => eq_refl) ltac:(cbn; lia) ltac:(lra) I eq_refl) as (s1 & s1' & S & Pa).
  exists s, s1, s1'. cbn zeta. split; [|split; [|auto]].
  - split; [reflexivity|]. split; [intros r [<-|[<-|[]]]; reflexivity|]. intros u Hu. destruct u as [|a [|b [|? ?]]]; try discriminate.
    unfold sqnorm, dot; cbn; ring.
  - intros p Hp. rewrite !sqf_floats. destruct p as [|a [|b [|? ?]]]; try discriminate. f_equal. unfold sqnorm, dot; cbn; ring.
Qed.
