(** * C104: the order in which particles are listed does not matter *)
From Coq Require Import List Arith Bool Reals Lia Lra.
From Verif Require Import Scalar Np State Pdyn Exec TermSpec RVec RVecFacts Consensus ConsSpec PostProc Cbo CboSpec TwinSpec RelabelSpec RelabelReal ExCbo ExRelabel.
Import ListNotations.
Open Scope R_scope.

(** C104. Two CBO runs that start from the same ensembles with the particles listed in another order, and whose draws go to the same particles,
    stay the same run: after any calls positions and energies are reordered in the same way and everything else agrees, the consensus points, best energies,
    update norms, counters, active runs, pending batches. *)
Theorem C104_relabelled : forall (f : vec -> fl R) k (pp : vec -> vec) b partial cat ks save d, Forall builtin ks -> finite_obj d f ->
  (forall q, length q = d -> exists q', pp (floats q) = floats q' /\ length q' = d) ->
  forall p r s s', relabelled_runs p r (cbo_cfg f k pp NoCorr b partial cat ks save) (finite_state d) (finite_draws d) s s' -> relabelled p r s s'.
Proof. exact cbo_relabelled. Qed.
Print Assumptions C104_relabelled.

(** C104. ... and both stop at the same check. *)
Theorem C104_stops_together : forall (f : vec -> fl R) k (pp : vec -> vec) b partial cat ks save d, Forall builtin ks -> finite_obj d f ->
  (forall q, length q = d -> exists q', pp (floats q) = floats q' /\ length q' = d) ->
  forall p r s s' b1 b2 s1 s1', relabelled_runs p r (cbo_cfg f k pp NoCorr b partial cat ks save) (finite_state d) (finite_draws d) s s' ->
  terminate (cbo_cfg f k pp NoCorr b partial cat ks save) s = Ok (b1, s1) -> terminate (cbo_cfg f k pp NoCorr b partial cat ks save) s' = Ok (b2, s1') -> b1 = b2.
Proof. exact cbo_relabelled_terminate. Qed.
Print Assumptions C104_stops_together.

(** C104. The best particles of the two runs have the same energy once something was evaluated ... *)
Theorem C104_best : forall (f : vec -> fl R) k (pp : vec -> vec) b partial cat ks save d p r s s' m v v',
  let c := cbo_cfg f k pp NoCorr b partial cat ks save in
  Forall builtin ks -> finite_obj d f -> (forall q, length q = d -> exists q', pp (floats q) = floats q' /\ length q' = d) -> no_nan c ->
  relabelled_runs p r c (finite_state d) (finite_draws d) s s' ->
  nth_error (s_bp s) m = Some v -> nth_error (s_bp s') m = Some v' -> nth_error (s_be s) m = Some PInf \/ f v' = f v.
Proof. exact relabelled_best. Qed.
Print Assumptions C104_best.

(** ... but need not be the same point: among equal energies the particle listed first is reported. *)
Theorem C104_best_particle_refuted : exists s s' (c := cbo_cfg (fun _ => Fin 0) NIso (fun v => v) NoCorr 3 true false [CMaxIt (Some 5%nat)] true),
  finite_obj 2 (fun _ => Fin 0) /\ relabelled_runs sw sw c (finite_state 2) (finite_draws 2) s s' /\ s_be s' = s_be s /\ nth_error (s_be s) 0 = Some (Fin 0) /\
  nth_error (s_bp s') 0 <> nth_error (s_bp s) 0.
Proof. exact relabelled_tie. Qed.
Print Assumptions C104_best_particle_refuted.

(** one step for |x|^2 in the plane, two runs of three particles in batches of 2, partial updates; the first and the last particle of run 0 change places *)
Example C104_hypotheses : exists s s1 s1', let c := cbo_cfg sqf NAniso (pp_point 10 false) NoCorr 2 true false [CMaxIt (Some 5%nat); CEnergyTol (Fin 1)] true in
  cinit c 1 1 (/ 2) 3 = Ok s /\ step c corc s = Ok s1 /\ Forall builtin [CMaxIt (Some 5%nat); CEnergyTol (Fin 1) : crit R vec] /\ finite_obj 2 sqf /\
  relabelled_runs sw sw c (finite_state 2) (finite_draws 2) s1 s1'.
Proof.
  set (c := cbo_cfg sqf NAniso (pp_point 10 false) NoCorr 2 true false [CMaxIt (Some 5%nat); CEnergyTol (Fin 1)] true).
  destruct (cinit_ok c 1 1 (/ 2) 3) as (s & I & _); [cbn; lia|lra|].
  destruct (crelabelled c 1 1 (/ 2) 3 s _ eq_refl (fun _ _ _ => eq_refl) ltac:(cbn; lia) ltac:(lra) I eq_refl) as (_ & _ & _ & s1 & s1' & S1 & _ & R).
  exists s, s1, s1'. cbn zeta. split; [exact I|]. split; [exact S1|]. split; [repeat constructor|]. split; [apply sqf_finite|exact R].
Qed.
