(** * Concrete runs of DriftConstrainedCBO beside a sphere *)
From Coq Require Import String List Arith Bool Reals Permutation Lra Lia.
From Verif Require Import Scalar ScalarFacts RFacts Np NpFacts State Pdyn PdynFacts PdynRun PdynOk Exec Script RVec RVecFacts Consensus ConsSpec MatSqrt Constraints ConSpec ConFacts ExCon Cbo CboSpec CboFacts ExCbo MemSpec
  RegSched RegFacts Variant VarSpec VarFacts ProxSpec ConRunSpec ConRun ConReg ConTotal ConSphere ExConRun.
Import ListNotations.
Open Scope R_scope.

(** the sphere of radius r on the line *)
Definition sphere_multi (r : R) : multi (K := R) (V := vec) :=
  mkmulti (fun v => match reals v with Some x => floats (multi_grad_sq [CSphere r] x) | None => map (fun _ => NaN) v end)
    (fun fac v w => match fac, reals v, reals w with
                    | Fin t, Some x, Some [a] => match multi_solve solve1 [CSphere r] x [a] t with MVec (Some y) => Ok (floats y) | _ => Err ValueError end
                    | _, _, _ => Ok (map (fun _ => NaN) w)
                    end).
Lemma sphere_multi_applies : forall r, applies_constraints 1 solve1 [CSphere r] (sphere_multi r).
Proof.
  intros r. split. { intros x _. cbn [sphere_multi g_grad]. rewrite reals_floats. auto. }
  intros t x xt w _ Lt H. destruct xt as [|a [|? ?]]; try discriminate Lt. cbn [sphere_multi g_solve] in H. rewrite !reals_floats in H. destruct (multi_solve solve1 [CSphere r] x [a] t) as [|[y|]]; try discriminate H. injection H as <-. eauto.
Qed.
Lemma sq1 : forall t, sqnorm [t] = t * t.
Proof. intros t. unfold sqnorm, dot. cbn. ring. Qed.
Lemma sphere_multi_total : forall r t x v, 1 + 8 * t * sqnorm [x] + 4 * t * (sqnorm [x] - r * r) <> 0 -> exists w, g_solve (sphere_multi r) (Fin t) (floats [x]) v = Ok w.
Proof.
  intros r t x v H. cbn [sphere_multi g_solve]. rewrite reals_floats. destruct (reals v) as [[|a [|? ?]]|]; eauto. cbn [multi_solve]. unfold solve_hess_sq, solve1. cbn [length].
  destruct (Req_EM_T _ 0) as [Z|Z]; [|eexists; reflexivity]. exfalso. apply H. unfold eye, con_hess_sq, coord in Z. cbn [con con_grad con_hess vscal map nth Nat.eqb] in Z. unfold eye in Z. cbn [Nat.eqb] in Z.
  assert (V : vnorm [x] ^ 2 = x * x). { replace (vnorm [x] ^ 2) with (vnorm [x] * vnorm [x]) by ring. rewrite vnorm_sq. unfold sqnorm, dot. cbn. ring. }
  rewrite V in Z. rewrite sq1. etransitivity; [|exact Z]. ring.
Qed.

(** one step, and any number of termination checks, from three particles at t *)
Lemma dcs_travels : forall r t, 1 + 8 * sqnorm [t] + 4 * (sqnorm [t] - r * r) <> 0 -> exists s s', let c := kc sqf NAniso in let inner := dc_inner (Some (sphere_multi r)) (Fin (/ 100)) in
  finite_obj 1 sqf /\ vexec inner (fun _ => tt) c 0 (s, tt) [] /\ finite_alpha s /\ parameters 1 (/ 100) 5 s /\ run_in (fun q => q = [t]) s 0 1 /\ travels inner c 1 (s, tt) 1 (s', tt).
Proof.
  intros r t NZ. destruct (kstart sqf NAniso 5 [[t]; [t]; [t]] eq_refl) as (s & I0 & HC & HM & HN & HA & P & FA & PA & HX). exists s.
  set (inner := dc_inner (Some (sphere_multi r)) (Fin (/ 100))).
  assert (E : vexec inner (fun _ => tt) (kc sqf NAniso) 0 (s, tt) []) by (apply (vx_init inner (fun _ => tt)); auto).
  assert (LA : length (s_active s) = s_M s) by (rewrite HA, HM; auto).
  destruct (dc_total_at (Some (sphere_multi r)) (Fin (/ 100)) (kc sqf NAniso) 0 s tt [] korc (cbo_one_point _ _ _ _ _ _ _ _)) as (s' & HS); auto.
  { intros g row x Hg Hr Hx y. injection Hg as <-. destruct PA as (_ & -> & _). rewrite fdiv_fin by lra. replace (/ 100 / / 100) with 1 by field. rewrite HX in Hr. destruct Hr as [<-|[]].
    assert (x = floats [t]) as -> by (destruct Hx as [<-|[<-|[<-|[]]]]; auto). apply sphere_multi_total. rewrite !Rmult_1_r. auto. }
  exists s'. cbv zeta. split; [apply sqf_finite|]. split; [exact E|]. split; [exact FA|]. split; [exact PA|]. split.
  - apply (krun_in s [[t]; [t]; [t]]); auto. intros p [<-|[<-|[<-|[]]]]; auto.
  - eapply tr_step; [apply tr_start|rewrite HA; discriminate|exact LA|exact P|apply korc_finite|exact HS].
Qed.
Lemma out_case : 1 <= vnorm [2] /\ 1 + 8 * sqnorm [2] + 4 * (sqnorm [2] - 1 * 1) <> 0.
Proof. split; [|rewrite sq1; lra]. unfold vnorm. rewrite sq1. rewrite sqrt_square by lra. lra. Qed.
Lemma in_case : 0 < sqnorm [/ 4] < (2 * (/ 100 / / 100) * (1 * 1) - 1) / (10 * (/ 100 / / 100)) /\ 1 + 8 * sqnorm [/ 4] + 4 * (sqnorm [/ 4] - 1 * 1) <> 0.
Proof. rewrite sq1. replace (/ 100 / / 100) with 1 by field. lra. Qed.
