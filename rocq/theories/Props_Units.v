(** * C102: CBO in other units of length, energy and time *)
From Coq Require Import List Arith Bool Reals Lia Lra.
From Verif Require Import Scalar Np State Pdyn Exec TermSpec RVec RVecFacts Consensus ConsSpec PostProc Cbo CboSpec TwinSpec UnitsSpec UnitsSym ExCbo ExUnits.
Import ListNotations.
Open Scope R_scope.

(** C102. Measuring lengths in 1/len, energies in 1/en and times in 1/ti of the old units, with alpha, lamda and sigma converted accordingly and the draws unchanged,
    gives the same run: after any calls the states are conversions of each other, with the same active runs, batches, counters and best particles. *)
Theorem C102_units : forall (f f' : vec -> fl R) k (pp pp' : vec -> vec) b partial cat ks save len en ti d s s', 0 < len -> 0 < en -> 0 < ti -> Forall builtin ks -> finite_obj d f ->
  (forall p, length p = d -> f' (floats (vscal len p)) = times_by en (f (floats p))) ->
  (forall p, length p = d -> exists q, pp (floats p) = floats q /\ length q = d /\ pp' (floats (vscal len p)) = floats (vscal len q)) ->
  both (cbo_units k len en ti) (cbo_cfg f k pp NoCorr b partial cat ks save)
    (cbo_cfg f' k pp' NoCorr b partial cat (map (converted_crit (cbo_units k len en ti)) ks) save) (finite_state d) (finite_draws d) s s' ->
  converted (cbo_units k len en ti) s s'.
Proof. intros f f' k pp pp' b partial cat ks save len en ti d s s' H1 H2 H3 H4 H5 H6 H7. exact (units_invariant f f' k pp pp' b partial cat ks save d len en ti H1 H2 H3 H4 H5 H6 H7 s s'). Qed.
Print Assumptions C102_units.

(** C102. ... and both stop at the same check. *)
Theorem C102_stops_together : forall (f f' : vec -> fl R) k (pp pp' : vec -> vec) b partial cat ks save len en ti d s s' b1 b2 s1 s1', 0 < len -> 0 < en -> 0 < ti -> Forall builtin ks -> finite_obj d f ->
  (forall p, length p = d -> f' (floats (vscal len p)) = times_by en (f (floats p))) ->
  (forall p, length p = d -> exists q, pp (floats p) = floats q /\ length q = d /\ pp' (floats (vscal len p)) = floats (vscal len q)) ->
  let c := cbo_cfg f k pp NoCorr b partial cat ks save in let c' := cbo_cfg f' k pp' NoCorr b partial cat (map (converted_crit (cbo_units k len en ti)) ks) save in
  both (cbo_units k len en ti) c c' (finite_state d) (finite_draws d) s s' -> terminate c s = Ok (b1, s1) -> terminate c' s' = Ok (b2, s1') -> b1 = b2.
Proof. intros f f' k pp pp' b partial cat ks save len en ti d s s' b1 b2 s1 s1' H1 H2 H3 H4 H5 H6 H7. exact (units_terminate f f' k pp pp' b partial cat ks save d len en ti H1 H2 H3 H4 H5 H6 H7 s s' b1 b2 s1 s1'). Qed.
Print Assumptions C102_stops_together.

(** C102. The default post-processing meets the hypothesis when its threshold is converted as a length ... *)
Theorem C102_threshold : forall len t d, 0 < len -> 0 <= t -> forall p, length p = d ->
  exists q, pp_point t false (floats p) = floats q /\ length q = d /\ pp_point (len * t) false (floats (vscal len p)) = floats (vscal len q).
Proof. exact pp_units. Qed.
Print Assumptions C102_threshold.
(** ... but not with the fixed threshold the code uses by default: the default dynamic has a length scale of its own. *)
Theorem C102_fixed_threshold_refuted : forall len t, 1 < len -> 0 < t ->
  pp_point t false (floats [t]) = floats [t] /\ pp_point t false (floats (vscal len [t])) <> floats (vscal len [t]).
Proof. exact (fun len t H1 H2 => conj (pp_kept t H2) (pp_fixed len t H1 H2)). Qed.
Print Assumptions C102_fixed_threshold_refuted.

(** C102. Times in units of dt: a run with (lamda, sigma, dt) is a run with (lamda dt, sigma sqrt(dt), 1), so only these two products matter. *)
Theorem C102_time_step_one : forall k (la dt sg : R), 0 < dt -> let u := cbo_units k 1 1 (/ dt) in
  u_lamda u (Fin la) = Fin (la * dt) /\ u_sigma u (Fin sg) = Fin (sg * sqrt dt) /\ u_t u (Fin dt) = Fin 1 /\ u_alpha u (Fin la) = Fin la.
Proof. exact time_step_one. Qed.
Print Assumptions C102_time_step_one.

(** one step of |x|^2 in the plane from |x|^2 with lengths doubled, energies times 4, times times 3; lamda = 1, dt = 1/2, sigma = 3, anisotropic noise, batches of 2 *)
Example C102_hypotheses : exists s s1 s1', let c := cbo_cfg sqf NAniso (pp_point 10 false) NoCorr 2 true false [CMaxIt (Some 5%nat); CEnergyTol (Fin 1)] true in
  cinit c 1 1 (/ 2) 3 = Ok s /\ step c corc s = Ok s1 /\ Forall builtin [CMaxIt (Some 5%nat); CEnergyTol (Fin 1) : crit R vec] /\ finite_obj 2 sqf /\
  (forall p, length p = 2%nat -> sqf (floats (vscal 2 p)) = times_by 4 (sqf (floats p))) /\
  both (cbo_units NAniso 2 4 3) c (cbo_cfg sqf NAniso (pp_point (2 * 10) false) NoCorr 2 true false (map (converted_crit (cbo_units NAniso 2 4 3)) [CMaxIt (Some 5%nat); CEnergyTol (Fin 1)]) true)
    (finite_state 2) (finite_draws 2) s1 s1'.
Proof.
  set (c := cbo_cfg sqf NAniso (pp_point 10 false) NoCorr 2 true false [CMaxIt (Some 5%nat); CEnergyTol (Fin 1)] true).
  set (c' := cbo_cfg sqf NAniso (pp_point (2 * 10) false) NoCorr 2 true false (map (converted_crit (cbo_units NAniso 2 4 3)) [CMaxIt (Some 5%nat); CEnergyTol (Fin 1)]) true).
  destruct (cinit_ok c 1 1 (/ 2) 3) as (s & I & _); [cbn; lia|lra|].
  destruct (cboth (cbo_units NAniso 2 4 3) c c' 1 1 (/ 2) 3 s _
    eq_refl eq_refl eq_refl (fun _ _ _ => eq_refl) (fun _ _ _ => eq_refl) ltac:(cbn; lia) ltac:(lra) I eq_refl) as (s1 & s1' & S & Pa).
  exists s, s1, s1'. cbn zeta. split; [exact I|]. split; [exact S|]. split; [repeat constructor|]. split; [apply sqf_finite|]. split; [apply sqf_units|exact Pa].
Qed.
Example C102_refuted_hypotheses : 1 < 2 /\ 0 < 10 ^ 8 /\ 0 < / 10.
Proof. lra. Qed.
