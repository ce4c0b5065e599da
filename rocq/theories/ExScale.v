(** * Concrete sessions in other units: lengths doubled, energies times 4 *)
From Coq Require Import String List Arith Bool Reals Permutation Lia Lra.
From Verif Require Import Scalar RFacts Np NpFacts State Pdyn Exec Script TermSpec RVec RVecFacts Consensus ConsSpec ConsFacts PostProc Cbo CboSpec CboFacts RegFacts CorrFacts ExCbo ExUnits UnitsSpec UnitsSym
  Memory MemSpec TwinSpec RegSched Variant VarSpec RegVar MirrorMaps HyperMaps AdamSpec SimSpec SimNp SimFacts MemSymSpec SessSpec SimCbo VarSessSpec SymLaws ScaleSpec ScaleLaws ExMemRun ExMemSym ExCoord ExVarSym.
Import ListNotations.
Open Scope R_scope.

Ltac two p H := destruct p as [|? [|? [|]]]; cbn [length] in H; try discriminate H.

(** ** corrections *)
Lemma heavi_scaled : forall en, 0 < en -> scale_corr en (Heavi heavi_side_fac) (Heavi heavi_side_fac).
Proof. intros en H z _. unfold heavi_side_fac. rewrite <- (times_0 en) at 1. change (Fin k0) with (Fin (0 : R)). rewrite times_0. rewrite <- (times_0 en) at 1. rewrite times_lt by auto. auto. Qed.
Lemma heavi_reg_scaled : forall en eps, 0 < en -> 0 < eps -> scale_corr en (Heavi (heavi_reg_fac eps)) (Heavi (heavi_reg_fac (en * eps))).
Proof.
  intros en eps H He z Hz. unfold heavi_reg_fac. do 3 f_equal. assert (0 < en * eps) by nra.
  assert (K : forall r : R, 0 < r -> k_is0 r = false). { intros r Hr. unfold k_is0. cbn. unfold Rltb. destruct (Rlt_dec r 0), (Rlt_dec 0 r); auto; lra. }
  destruct z as [x| | |]; try congruence; unfold times_by; cbn [fmul]; rewrite ?inf_pos by auto.
  - rewrite !fdiv_fin by lra. f_equal. change (kmul en x) with (en * x). field. lra.
  - cbn [fdiv]. rewrite !K, !inf_pos by auto. auto.
  - cbn [fdiv]. rewrite !K, !inf_pos by auto. auto.
Qed.
Lemma heavi_reg_fixed : forall en eps, 1 < en -> 0 < eps -> ~ scale_corr en (Heavi (heavi_reg_fac eps)) (Heavi (heavi_reg_fac eps)).
Proof.
  intros en eps H He C. specialize (C (Fin eps) ltac:(discriminate)). unfold heavi_reg_fac, times_by in C. cbn [fmul] in C. rewrite !fdiv_fin in C by lra.
  change (kmul en eps) with (en * eps) in C. replace (en * eps / eps) with en in C by (field; lra). replace (eps / eps) with 1 in C by (field; lra).
  cbn [ftanh fmul fadd kadd kmul KOps_R] in C. assert (Q : forall u v : R, Fin u = Fin v -> u = v) by (intros u v E; congruence). apply Q in C.
  rewrite !tanh_form in C. pose proof (exp_pos (2 * en)). pose proof (exp_pos (2 * 1)).
  assert (L : exp (2 * 1) < exp (2 * en)) by (apply exp_increasing; lra).
  assert (L2 : / (exp (2 * en) + 1) < / (exp (2 * 1) + 1)) by (apply Rinv_lt_contravar; nra).
  unfold Rdiv in C. lra.
Qed.

(** ** hypotheses of the sessions *)
Lemma sqf2 : forall p, length p = 2%nat -> sqf (floats (vscal 2 p)) = times_by 4 (sqf (floats p)).
Proof. apply sqf_units. Qed.
Lemma keep2 : forall p : list R, length p = 2%nat -> exists q, (fun v : vec => v) (floats p) = floats q /\ length q = 2%nat /\ (fun v : vec => v) (floats (vscal 2 p)) = floats (vscal 2 q).
Proof. intros p Hp. exists p. auto. Qed.
Lemma ex_scale_cbo : forall n, 0 < 2 /\ 0 < 4 /\ Forall builtin scrit /\ finite_corr NoCorr /\ scale_corr 4 NoCorr NoCorr /\ finite_obj 2 sqf /\
  (forall p, length p = 2%nat -> sqf (floats (vscal 2 p)) = times_by 4 (sqf (floats p))) /\
  sensible 2 2 cx0 (Fin 5) (Fin 1) (Fin 1) (Fin (/ 10)) (fun _ => [2; 0; 1]%nat) None /\ sensible_calls 2 (length cx0) (shape1 cx0) (bcalls corc n) /\
  exists s, bsession (bcfg sqf NAniso scrit) cx0 (bcalls corc n) = Ok s.
Proof.
  intros n. split; [lra|]. split; [lra|]. split; [apply scrit_builtin|]. split; [exact I|]. split; [exact I|]. split; [apply sqf_finite|]. split; [apply sqf2|].
  split; [apply bsensible; auto; [intros row [<-|[<-|[]]]; reflexivity|apply cx0_real]|].
  split; [apply bcalls_sensible; [intros; eexists; split; reflexivity|intros; apply (perm_b_ok 3); reflexivity]|].
  apply bruns; [apply scrit_builtin|]. intros; apply (perm_b_ok 3); reflexivity.
Qed.
Lemma sfac_scaled : scale_corr 4 (Heavi sfac) (Heavi sfac).
Proof. intros z _. unfold sfac. rewrite <- (times_0 4) at 1. rewrite times_lt by lra. auto. Qed.
Lemma ex_scale_mem : forall kd n, finite_corr (Heavi sfac) /\ scale_corr 4 (Heavi sfac) (Heavi sfac) /\
  finite_calls kd 2 (length cx0) (shape1 cx0) (Fin (/ 10)) (scalls n) /\ exists ms, ssession kd (scfg sqf NAniso scrit) cx0 (scalls n) = Ok ms.
Proof. intros kd n. split; [apply sfac_finite|]. split; [apply sfac_scaled|]. split; [apply scalls_finite|]. apply srun. apply scrit_builtin. Qed.
Lemma ex_scale_mirror : forall n, (forall p, length p = 2%nat -> exists q, mm_conj (L2 2) (floats p) = floats q /\ length q = 2%nat /\ mm_conj (L2 2) (floats (vscal 2 p)) = floats (vscal 2 q)) /\
  (forall row v, In row cx0 -> In v row -> exists q, mm_grad (L2 2) v = floats q /\ length q = 2%nat /\ mm_grad (L2 2) (map (times_by 2) v) = floats (vscal 2 q)) /\
  exists p, vsession (mirror_inner (mm_conj (L2 2))) (mirror_attr (mm_grad (L2 2))) (bcfg sqf NAniso scrit) cx0 (bcalls corc n) = Ok p.
Proof.
  intros n. split; [|split; [|apply mirror_runs]].
  - intros p Hp. two p Hp. eexists [1 / 2 * _; 1 / 2 * _]. unfold mm_conj. rewrite fdiv_fin by lra. unfold floats, vscal. cbn [map fmul kmul KOps_R].
    split; [reflexivity|]. split; [reflexivity|]. repeat (f_equal; try lra).
  - intros row v H1 H2. destruct (cx0_real row v H1 H2) as (p & -> & Hp). two p Hp. eexists [2 * _; 2 * _].
    split; [reflexivity|]. split; [reflexivity|]. unfold mm_grad, floats, vscal, times_by. cbn [map fmul kmul KOps_R]. repeat (f_equal; try lra).
Qed.
(** the constraint x_0 = 5 becomes x_0 = 10 *)
Lemma ex_scale_dc : forall n, / 10 <> 0 /\
  (forall p, length p = 2%nat -> exists q, g_grad (line 0 5) (floats p) = floats q /\ length q = 2%nat /\ g_grad (line 0 10) (floats (vscal 2 p)) = floats (vscal 2 q)) /\
  (forall a p u, length p = 2%nat -> length u = 2%nat ->
    same_outcome (fun w w' => real_point 2 w /\ w' = map (times_by 2) w) (g_solve (line 0 5) (Fin a) (floats p) (floats u)) (g_solve (line 0 10) (Fin a) (floats (vscal 2 p)) (floats (vscal 2 u)))) /\
  exists p, vsession (dc_inner (Some (line 0 5)) (Fin (/ 10))) (fun _ => tt) (bcfg sqf NAniso scrit) cx0 (bcalls corc n) = Ok p.
Proof.
  intros n. split; [lra|]. split; [|split; [|apply line_runs]].
  - intros p Hp. two p Hp. eexists [2 * (_ - 5); 0]. split; [reflexivity|]. split; [reflexivity|]. unfold line, g_grad, line_grad, mapi, floats, vscal. cbn [mapi_from map Nat.eqb fsub fopp fadd fmul kopp kadd ksub kmul KOps_R].
    repeat (f_equal; try lra).
  - intros a p u Hp Hu. two u Hu. cbn [line g_solve]. unfold line_solve. destruct (Req_EM_T (1 + 2 * a) 0) as [|N]; [reflexivity|]. cbn [same_outcome].
    split; [eapply (line_solve_real 0 a (floats p)); [|unfold line_solve; destruct (Req_EM_T (1 + 2 * a) 0); [congruence|reflexivity]]; reflexivity|].
    unfold mapi, floats, vscal, times_by. cbn [mapi_from map Nat.eqb]. rewrite !fdiv_fin by auto. cbn [fmul kmul KOps_R]. repeat (f_equal; try (field; auto)).
Qed.
Lemma ex_scale_hyper : forall n,
  (forall p u, length p = 2%nat -> length u = 2%nat -> exists q, h_tan (surface_of (PlaneD [1; 0] 0) NIso) (floats p) (floats u) = floats q /\ length q = 2%nat /\
    h_tan (surface_of (PlaneD [1; 0] 0) NIso) (floats (vscal 2 p)) (floats (vscal 2 u)) = floats (vscal 2 q)) /\
  (forall p, length p = 2%nat -> exists q, h_proj (surface_of (PlaneD [1; 0] 0) NIso) (floats p) = floats q /\ length q = 2%nat /\
    h_proj (surface_of (PlaneD [1; 0] 0) NIso) (floats (vscal 2 p)) = floats (vscal 2 q)) /\
  (forall t sg p u, length p = 2%nat -> length u = 2%nat -> exists q, h_nc (surface_of (PlaneD [1; 0] 0) NIso) (Fin t) (Fin sg) (floats p) (floats u) = floats q /\ length q = 2%nat /\
    h_nc (surface_of (PlaneD [1; 0] 0) NIso) (Fin t) (Fin sg) (floats (vscal 2 p)) (floats (vscal 2 u)) = floats (vscal 2 q)) /\
  exists p, vsession (hyper_inner (surface_of (PlaneD [1; 0] 0) NIso)) (fun _ => tt) (bcfg sqf NIso scrit) cx0 (bcalls corc n) = Ok p.
Proof.
  intros n. unfold surface_of. cbn [h_tan h_proj h_nc].
  assert (L : forall p : list R, length p = 2%nat -> length (vscal 2 p) = 2%nat) by (intros; rewrite length_vscal; auto).
  split; [|split; [|split; [|apply hyper_runs]]].
  - intros p u _ Hu. rewrite (proj1 (line_tan _ _ Hu)), (proj1 (line_tan _ _ (L _ Hu))). eexists. split; [reflexivity|]. split; [reflexivity|].
    two u Hu. unfold floats, vscal. cbn. repeat (f_equal; try lra).
  - intros p Hp. rewrite (proj1 (line_proj _ Hp)), (proj1 (line_proj _ (L _ Hp))). eexists. split; [reflexivity|]. split; [reflexivity|].
    two p Hp. unfold floats, vscal. cbn. repeat (f_equal; try lra).
  - intros t sg p u _ Hu. rewrite (proj1 (line_nc _ _ _ _ Hu)), (proj1 (line_nc _ _ _ _ (L _ Hu))). eexists. split; [reflexivity|]. split; [reflexivity|].
    unfold floats, vscal. cbn. repeat (f_equal; try lra).
Qed.
(** objective sqf, penalty 2 * sqf *)
Definition pen1 (v : vec) : fl R := fadd (sqf v) (fmul (Fin 2) (sqf v)).
Lemma ex_scale_reg : forall n, finite_obj 2 pen1 /\ (forall p, length p = 2%nat -> pen1 (floats (vscal 2 p)) = times_by 4 (pen1 (floats p))) /\
  (forall v, pen1 v = fadd (sqf v) (fmul (Fin 2) ((fun a => a) (sqf v)))) /\
  (forall p, length p = 2%nat -> exists r q, sqf (floats p) = Fin r /\ sqf (floats (vscal 2 p)) = Fin (4 * r) /\ sqf (floats p) = Fin q /\ sqf (floats (vscal 2 p)) = Fin (4 * q)) /\
  (/ 10 <> 0 /\ forall a p u, length p = 2%nat -> length u = 2%nat ->
    same_outcome (fun w w' => real_point 2 w /\ w' = map (times_by 2) w) (mid (Fin a) (floats p) (floats u)) (mid (Fin a) (floats (vscal 2 p)) (floats (vscal 2 u)))) /\
  exists p, vsession (reg_inner (reg_call sqf sqf (fun a => a)) (Some mid) (Fin (/ 10))) (reg_attr (Fin 2)) (bcfg pen1 NAniso scrit) cx0 (bcalls corc n) = Ok p.
Proof.
  intros n.
  assert (S2 : forall p, length p = 2%nat -> exists r, sqf (floats p) = Fin r /\ sqf (floats (vscal 2 p)) = Fin (4 * r)).
  { intros p Hp. destruct (sqf_finite 2%nat p Hp) as (r & E). exists r. rewrite sqf2, E by auto. auto. }
  split; [intros p Hp; destruct (S2 p Hp) as (r & E & _); unfold pen1; rewrite E; eexists; reflexivity|].
  split; [intros p Hp; destruct (S2 p Hp) as (r & E & E'); unfold pen1, times_by; rewrite E, E'; cbn; f_equal; ring|].
  split; [reflexivity|]. split; [intros p Hp; destruct (S2 p Hp) as (r & E & E'); exists r, r; auto|].
  split; [split; [lra|]|].
  - intros a p u Hp Hu. unfold mid. cbn [same_outcome]. split; [eapply (mid_real a p u); auto; reflexivity|]. two p Hp. two u Hu. unfold floats, vscal, times_by. cbn. repeat (f_equal; try lra).
  - apply reg_runs; [reflexivity|]. intros g E. injection E as <-. intros x y. unfold mid. eauto.
Qed.
