(** * Concrete runs of DriftConstrainedCBO and RegCombinationCBO *)
From Coq Require Import String List Arith Bool Reals Permutation Lra Lia.
From Verif Require Import Scalar ScalarFacts RFacts Np NpFacts State Pdyn PdynFacts PdynRun PdynOk Exec Script RVec RVecFacts Consensus ConsSpec MatSqrt Constraints ConSpec ConFacts ExCon Cbo CboSpec CboFacts ExCbo MemSpec
  RegSched RegFacts Variant VarSpec VarFacts RegVar VarTotal ProxSpec ConRunSpec ConRun ConReg.
Import ListNotations.
Open Scope R_scope.

(** the coordinates of a finite point *)
Fixpoint reals (v : vec) : option (list R) :=
  match v with [] => Some [] | Fin a :: w => match reals w with Some l => Some (a :: l) | None => None end | _ => None end.
Lemma reals_floats : forall x, reals (floats x) = Some x.
Proof. induction x as [|a x IH]; auto. cbn. unfold floats in IH. rewrite IH. auto. Qed.

(** the constraint x_1 = 0 on the line, as DriftConstrainedCBO and as RegCombinationCBO use it; unit sphere on the line *)
Definition zero_multi : multi (K := R) (V := vec) :=
  mkmulti (fun v => match reals v with Some x => floats (multi_grad_sq [CPlane [1] 0] x) | None => map (fun _ => NaN) v end)
    (fun fac v w => match fac, reals v, reals w with
                    | Fin t, Some x, Some xt => match multi_solve solve1 [CPlane [1] 0] x xt t with
                                                | MVec (Some y) => Ok (floats y)
                                                | _ => if Rle_dec 0 t then Ok (map (fun _ => NaN) w) else Err ValueError
                                                end
                    | _, _, _ => Ok (map (fun _ => NaN) w)
                    end).
Definition lifted (h : list R -> list R -> R -> vec) (fac : fl R) (v w : vec) : res vec :=
  match fac, reals v, reals w with Fin t, Some x, Some xt => Ok (h x xt t) | _, _, _ => Ok (map (fun _ => NaN) w) end.

Lemma vnorm1 : vnorm [1] = 1.
Proof. unfold vnorm, sqnorm, dot. cbn. replace (1 * 1 + 0) with 1 by ring. apply sqrt_1. Qed.
Lemma zero_applies : applies_constraints 1 solve1 [CPlane [1] 0] zero_multi.
Proof.
  split. { intros x _. cbn [zero_multi g_grad]. rewrite reals_floats. auto. }
  intros t x xt w Lx Lt H. cbn [zero_multi g_solve] in H. rewrite !reals_floats in H. destruct x as [|x0 [|? ?]]; try discriminate Lx. destruct xt as [|y0 [|? ?]]; try discriminate Lt.
  destruct (multi_solve solve1 [CPlane [1] 0] [x0] [y0] t) as [|[y|]] eqn:E.
  - discriminate E. - injection H as <-. eauto.
  - exfalso. destruct (Rle_dec 0 t) as [Ht|Ht]; [|discriminate H]. cbn in E. unfold solve_hess_sq, solve1 in E. cbn [length] in E.
    destruct (Req_EM_T _ 0) as [Z|Z]; [|discriminate E]. unfold eye, con_hess_sq, coord in Z. cbn [con_grad con_hess map nth Nat.eqb] in Z. rewrite vnorm1 in Z. nra.
Qed.
Lemma plane_applies : applies_plane 1 [1] 0 (lifted (fun x xt t => floats (solve_plane [1] 0 x xt t))).
Proof. intros t x xt _ _. unfold lifted. rewrite !reals_floats. auto. Qed.
Lemma sphere_applies : applies_sphere 1 1 (lifted (fun x xt t => solve_sphere 1 x xt t)).
Proof. intros t x xt _ _. unfold lifted. rewrite !reals_floats. auto. Qed.

Definition kc (f : vec -> fl R) (k : noise_model) : cfg R vec := cbo_cfg f k (fun v => v) NoCorr 2 false false [] false.
Definition korc : orc vec := {| o_z := fun i n => floats [INR n - 1]; o_perm := fun _ => [2; 0; 1]%nat |}.
Definition kx (X : list (list R)) : arr vec := [map floats X].
(** one run of three particles with the default dt = 0.01 *)
Definition kinit (c : cfg R vec) (sg : R) (X : list (list R)) : res (st R vec) := init c (kx X) false (Fin 1) (Fin sg) (Fin 1) (Fin (/ 100)) (fun _ => [2; 0; 1]%nat) None [] None.

Lemma kstart : forall f k sg X, length X = 3%nat -> exists s, kinit (kc f k) sg X = Ok s /\ constructed (kc f k) s /\ s_M s = 1%nat /\ s_N s = 3%nat /\ s_active s = [0]%nat /\ perms_valid korc s /\
  finite_alpha s /\ parameters 1 (/ 100) sg s /\ s_x s = kx X.
Proof.
  intros f k sg X L. destruct X as [|p [|q [|r [|? ?]]]]; try discriminate L. eexists. split; [reflexivity|]. split.
  { exists (kx [p; q; r]), false, (Fin 1), (Fin sg), (Fin 1), (Fin (/ 100)), (fun _ => [2; 0; 1]%nat), None, [], None.
    split; [split; [reflexivity|repeat constructor]|]. split; [cbn; lia|]. split; [cbn; lia|]. split; [|split; [discriminate|reflexivity]]. intros m _. apply (perm_b_ok 3). reflexivity. }
  split; [reflexivity|]. split; [reflexivity|]. split; [reflexivity|]. split; [intros m _; apply (perm_b_ok 3); reflexivity|].
  split. { intros m Hm. cbn in Hm. assert (m = 0)%nat as -> by lia. exists 1. reflexivity. }
  split; [split; [reflexivity|split; [reflexivity|split; [reflexivity|lra]]]|]. reflexivity.
Qed.
Lemma korc_finite : finite_draws 1 korc.
Proof. intros i n. exists [INR n - 1]. auto. Qed.

Lemma krun_in : forall s X (C : list R -> Prop), s_x s = kx X -> s_N s = length X -> (forall p, In p X -> length p = 1%nat /\ C p) -> run_in C s 0 1.
Proof. intros s X C E L H. exists X. split; [split; [rewrite E; reflexivity|split; [auto|intros p Hp; apply H; auto]]|intros p Hp; apply H; auto]. Qed.

Lemma dc_travels : forall f k sg X j, length X = 3%nat -> exists s s', kinit (kc f k) sg X = Ok s /\
  vexec (dc_inner (Some zero_multi) (Fin (/ 100))) (fun _ => tt) (kc f k) 0 (s, tt) [] /\ finite_alpha s /\ parameters 1 (/ 100) sg s /\ s_x s = kx X /\ s_N s = 3%nat /\
  travels (dc_inner (Some zero_multi) (Fin (/ 100))) (kc f k) 1 (s, tt) j (s', tt).
Proof.
  intros f k sg X j L. destruct (kstart f k sg X L) as (s & I & HC & HM & HN & HA & P & FA & PA & HX). exists s.
  assert (E : vexec (dc_inner (Some zero_multi) (Fin (/ 100))) (fun _ => tt) (kc f k) 0 (s, tt) []) by (apply (vx_init (dc_inner (Some zero_multi) (Fin (/ 100))) (fun _ => tt)); auto).
  assert (T : exists s', travels (dc_inner (Some zero_multi) (Fin (/ 100))) (kc f k) 1 (s, tt) j (s', tt) /\ s_active s' = [0]%nat).
  { induction j as [|j (s1 & T & HA1)]; [exists s; split; [constructor|auto]|].
    destruct (travels_same _ _ _ _ (dc_regular (Some zero_multi) (Fin (/ 100))) attr_unit (kc f k) Logic.I _ _ _ _ _ _ _ _ E T) as ((n1 & l1 & E1) & K1 & K2 & K3 & K4 & K5 & K6).
    assert (P1 : perms_valid korc s1) by (intros m Hm; rewrite K2; apply P; congruence). assert (L1 : length (s_active s1) = s_M s1) by (rewrite HA1, K1, HM; auto).
    destruct (dc_total (Some zero_multi) (Fin (/ 100)) (kc f k) n1 s1 tt l1 korc (cbo_one_point _ _ _ _ _ _ _ _)) as (s2 & HS); auto.
    { intros g Hg x y. injection Hg as <-. rewrite K6. destruct PA as (_ & -> & _). rewrite fdiv_fin by lra. cbn [zero_multi g_solve]. destruct (reals x), (reals y); eauto.
      destruct (multi_solve _ _ _ _ _) as [|[w|]]; eauto; (destruct (Rle_dec 0 (/ 100 / / 100)) as [H|H]; [eauto|exfalso; apply H; unfold Rdiv; rewrite Rinv_r by lra; lra]). }
    assert (NA : s_active s1 <> []) by (rewrite HA1; discriminate).
    destruct (step_same _ _ _ _ (dc_regular (Some zero_multi) (Fin (/ 100))) attr_unit (kc f k) Logic.I n1 s1 tt l1 korc s2 tt E1 P1 NA HS) as (_ & _ & _ & _ & _ & _ & JA).
    exists s2. split; [eapply tr_step; eauto; apply korc_finite|congruence]. }
  destruct T as (s' & T & _). exists s'. repeat split; auto; apply PA.
Qed.

Lemma reg_travels : forall f f0 reg pow lp k h eps sg X j, eps <> 0 -> length X = 3%nat -> penalised f0 reg pow lp (kc f k) -> exists s s' ob', kinit (kc f k) sg X = Ok s /\
  let inner := reg_inner (reg_call f0 reg pow) (Some (lifted h)) (Fin eps) in
  vexec inner (reg_attr lp) (kc f k) 0 (s, reg_attr lp s) [] /\ finite_alpha s /\ parameters 1 (/ 100) sg s /\ s_x s = kx X /\ s_N s = 3%nat /\
  travels inner (kc f k) 1 (s, reg_attr lp s) j (s', ob').
Proof.
  intros f f0 reg pow lp k h eps sg X j He L PC. destruct (kstart f k sg X L) as (s & I & HC & HM & HN & HA & P & FA & PA & HX). exists s.
  set (inner := reg_inner (reg_call f0 reg pow) (Some (lifted h)) (Fin eps)).
  assert (E : vexec inner (reg_attr lp) (kc f k) 0 (s, reg_attr lp s) []) by (apply (vx_init inner (reg_attr lp)); auto).
  pose proof (reg_regular f0 reg pow lp (Some (lifted h)) (Fin eps)) as RG. pose proof (@reg_attr_ok R vec lp) as RA. pose proof (cbo_one_point f k (fun v => v) 2 false false [] false) as C1.
  assert (T : exists s' ob', travels inner (kc f k) 1 (s, reg_attr lp s) j (s', ob') /\ s_active s' = [0]%nat /\ forall lm, o_lamda ob' = Some lm -> length lm = s_M s).
  { induction j as [|j (s1 & ob1 & T & HA1 & HO)]; [exists s, (reg_attr lp s); split; [constructor|split; [auto|discriminate]]|].
    destruct (travels_same _ _ _ _ RG RA (kc f k) (conj PC C1) _ _ _ _ _ _ _ _ E T) as ((n1 & l1 & E1) & K1 & K2 & K3 & K4 & K5 & K6).
    assert (P1 : perms_valid korc s1) by (intros m Hm; rewrite K2; apply P; congruence). assert (L1 : length (s_active s1) = s_M s1) by (rewrite HA1, K1, HM; auto).
    assert (NA : s_active s1 <> []) by (rewrite HA1; discriminate).
    destruct (reg_total f0 reg pow lp (Some (lifted h)) (Fin eps) (kc f k) n1 s1 ob1 l1 korc PC C1) as (s2 & ob2 & HS & HO2); auto.
    { intros g Hg x y. injection Hg as <-. rewrite K6. destruct PA as (_ & -> & _). rewrite fdiv_fin by auto. unfold lifted. destruct (reals x), (reals y); eauto. }
    { rewrite K1, HM. lia. } { intros lm Hlm. rewrite K1. auto. }
    destruct (step_same _ _ _ _ RG RA (kc f k) (conj PC C1) n1 s1 ob1 l1 korc s2 ob2 E1 P1 NA HS) as (_ & _ & _ & _ & _ & _ & JA).
    exists s2, ob2. split; [eapply tr_step; eauto; apply korc_finite|]. split; [congruence|]. intros lm Hlm. rewrite <- K1. auto. }
  destruct T as (s' & ob' & T & _). exists s', ob'. repeat split; auto; apply PA.
Qed.

Definition kpen (v : vec) : fl R := fadd (sqf v) (fmul (Fin 2) (sqf v)).
Lemma kpen_finite : forall d, finite_obj d kpen.
Proof. intros d p Hp. destruct (sqf_finite d p Hp) as (r & E). unfold kpen. rewrite E. exists (r + 2 * r). reflexivity. Qed.

Lemma zero_value : forall t, c_value (CPlane [1] 0) [t] = t.
Proof. intros t. unfold c_value, coord. cbn. match goal with |- context [sqrt ?a] => replace a with 1 by ring end. rewrite sqrt_1. field. Qed.
Lemma one_value : forall t, c_value (CSphere 1) [t] = t * t - 1.
Proof. intros t. unfold c_value, coord. cbn. ring. Qed.

(** particles 1, -2, 4: after j steps all are within 4 / 3^j of the plane *)
Lemma dc_case : forall j, exists s s', let c := kc sqf NIso in let inner := dc_inner (Some zero_multi) (Fin (/ 100)) in
  solver solve1 /\ vnorm [1] <> 0 /\ applies_constraints 1 solve1 [CPlane [1] 0] zero_multi /\ finite_obj 1 sqf /\
  vexec inner (fun _ => tt) c 0 (s, tt) [] /\ finite_alpha s /\ parameters 1 (/ 100) 0 s /\ run_in (fun p => Rabs (c_value (CPlane [1] 0) p) <= 4) s 0 1 /\
  travels inner c 1 (s, tt) j (s', tt).
Proof.
  intros j. destruct (dc_travels sqf NIso 0 [[1]; [-2]; [4]] j eq_refl) as (s & s' & _ & E & FA & PA & HX & HN & T). exists s, s'. cbv zeta. split; [apply solve1_ok|]. split; [rewrite vnorm1; lra|].
  split; [apply zero_applies|]. split; [apply sqf_finite|]. split; [exact E|]. split; [exact FA|]. split; [exact PA|]. split; [|exact T].
  apply (krun_in s [[1]; [-2]; [4]]); auto. intros p [<-|[<-|[<-|[]]]]; (split; [reflexivity|]); rewrite zero_value; apply Rabs_le; lra.
Qed.

Lemma reg_case : forall h t j eps, eps <> 0 -> exists s s' ob', let c := kc kpen NAniso in let inner := reg_inner (reg_call sqf sqf (fun y => y)) (Some (lifted h)) (Fin eps) in
  penalised sqf sqf (fun y => y) (Fin 2) c /\ finite_obj 1 kpen /\
  vexec inner (reg_attr (Fin 2)) c 0 (s, reg_attr (Fin 2) s) [] /\ finite_alpha s /\ parameters 1 (/ 100) 5 s /\ run_in (fun q => q = [t]) s 0 1 /\
  travels inner c 1 (s, reg_attr (Fin 2) s) j (s', ob').
Proof.
  intros h t j eps He. assert (PC : penalised sqf sqf (fun y => y) (Fin 2) (kc kpen NAniso)) by (intros v; reflexivity).
  destruct (reg_travels kpen sqf sqf (fun y => y) (Fin 2) NAniso h eps 5 [[t]; [t]; [t]] j He eq_refl PC) as (s & s' & ob' & _ & E & FA & PA & HX & HN & T). exists s, s', ob'. cbv zeta.
  split; [exact PC|]. split; [apply kpen_finite|]. split; [exact E|]. split; [exact FA|]. split; [exact PA|]. split; [|exact T].
  apply (krun_in s [[t]; [t]; [t]]); auto. intros p [<-|[<-|[<-|[]]]]; auto.
Qed.
Lemma reg_all_case : forall j, exists s s' ob', let c := kc kpen NAniso in let inner := reg_inner (reg_call sqf sqf (fun y => y)) (Some (lifted (fun x xt t => floats (solve_plane [1] 0 x xt t)))) (Fin 1) in
  penalised sqf sqf (fun y => y) (Fin 2) c /\ finite_obj 1 kpen /\ vexec inner (reg_attr (Fin 2)) c 0 (s, reg_attr (Fin 2) s) [] /\ finite_alpha s /\ parameters 1 (/ 100) 0 s /\
  1 * / 100 + 2 * (/ 100 / 1) <= 1 /\ run_in (fun p => Rabs (c_value (CPlane [1] 0) p) <= 4) s 0 1 /\ travels inner c 1 (s, reg_attr (Fin 2) s) j (s', ob').
Proof.
  intros j. assert (PC : penalised sqf sqf (fun y => y) (Fin 2) (kc kpen NAniso)) by (intros v; reflexivity).
  destruct (reg_travels kpen sqf sqf (fun y => y) (Fin 2) NAniso (fun x xt t => floats (solve_plane [1] 0 x xt t)) 1 0 [[1]; [-2]; [4]] j ltac:(lra) eq_refl PC) as (s & s' & ob' & _ & E & FA & PA & HX & HN & T).
  exists s, s', ob'. cbv zeta. split; [exact PC|]. split; [apply kpen_finite|]. split; [exact E|]. split; [exact FA|]. split; [exact PA|]. split; [lra|]. split; [|exact T].
  apply (krun_in s [[1]; [-2]; [4]]); auto. intros p [<-|[<-|[<-|[]]]]; (split; [reflexivity|]); rewrite zero_value; apply Rabs_le; lra.
Qed.
Lemma near_sphere : forall eta, 0 < eta -> exists t, 0 < Rabs (c_value (CSphere 1) [t]) < eta.
Proof. intros eta H. exists (sqrt (1 + eta / 2)). rewrite one_value, sqrt_sqrt by lra. rewrite Rabs_right; lra. Qed.
