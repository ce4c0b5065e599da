(** * Consensus states of DriftConstrainedCBO beside a sphere *)
From Coq Require Import List Arith Bool Reals Lra Lia.
From Verif Require Import Scalar ScalarFacts RFacts Np NpFacts State Pdyn Exec PdynFacts PdynStep PdynRun PdynOk RVec RVecFacts ConsSpec ConsFacts Consensus Cbo CboSpec CboFacts AbsorbFacts MemSpec
  RegSched RegFacts Variant VarSpec VarFacts VarMove VarExactSpec VarExact ProxSpec ConvSpec ConvFacts MatSqrt MatFacts PotDefect Constraints ConSpec ConFacts ConRunSpec ConRun ConReg.
Import ListNotations.
Open Scope R_scope.

(** a run in consensus follows the constraint step *)
Lemma dc_follow : forall f k pp b partial cat ks save solve cs g eps la dt sg d m n s log j s' u' (P : nat -> list R), let c := cbo_cfg f k pp NoCorr b partial cat ks save in
  k <> NConst -> eps <> 0 -> finite_obj d f -> (forall q, length q = d -> pp (floats q) = floats q) -> (forall k', In k' cs -> fits k' d) -> applies_constraints d solve cs g -> (forall i, length (P i) = d) ->
  (forall i y, (i < j)%nat -> multi_solve solve cs (P i) (vscal (dt / eps) (multi_grad_sq cs (P i))) (dt / eps) = MVec (Some y) -> length y = d /\ vsub (P i) y = P (S i)) ->
  vexec (dc_inner (Some g) (Fin eps)) (fun _ => tt) c n (s, tt) log -> finite_alpha s -> parameters la dt sg s ->
  run_in (fun q => q = P 0%nat) s m d -> travels (dc_inner (Some g) (Fin eps)) c d (s, tt) j (s', u') -> run_in (fun q => q = P j) s' m d.
Proof.
  intros f k pp b partial cat ks save solve cs g eps la dt sg d m n s log j s' u' P c Hk He HF Hpp FT [HGr HGs] LP HP H FA (P1 & P2 & P3 & P4) R0 T.
  assert (C1 : one_consensus_point c) by (apply cbo_one_point). set (fac := dt / eps) in *.
  apply (travels_in (dc_inner (Some g) (Fin eps)) (fun _ => tt) (fun _ _ _ => True) no_cond (dc_regular _ _) attr_unit c I (fun i q => q = P i) d m n s tt log j j s' u'); auto.
  clear s' u' T. intros i n1 s1 e1 l1 o s2 e2 Hij E1 PV HD HA NA K3 K4 K5 K6 K1 HS R1 kk x Hx Lx Cx. subst x.
  destruct (vexec_inv _ _ _ _ (dc_regular (Some g) (Fin eps)) attr_unit c n1 s1 e1 l1 I E1) as [W _].
  destruct (dc_move g (Fin eps) c n1 s1 e1 l1 o s2 e2 C1 E1 PV HA HS m kk (floats (P i)) Hx) as (cp & w & HO & HW & HC).
  assert (FA1 : finite_alpha s1) by (intros r Hr; rewrite K3; apply FA; congruence).
  assert (CV : convex_set d (fun q => q = P i)).
  { intros p q t Lp Lq -> -> Ht. apply (coord_ext _ _ d); auto. apply mix_length; auto. intros r _. rewrite (mix_coord t (P i) (P i) d) by auto. ring. }
  destruct (own_in f k pp b partial cat ks save _ d o s1 m cp HF CV W PV FA1 R1 HO) as (q & -> & Lq & ->).
  destruct (HD m kk) as (z & Ez & Lz). rewrite Ez in HW. unfold pull, kick in HW. rewrite K4, K5, K6, P1, P2, P3 in HW.
  cbn [c cbo_cfg c_vadd c_vsub c_vscale c_noise] in HW. rewrite HGr, fdiv_fin in HW by auto. cbn [fmul kmul KOps_R] in HW.
  rewrite floats_sub, noise_floats, !floats_scal, !floats_add in HW by auto. fold fac in HW.
  assert (Lg : length (multi_grad_sq cs (P i)) = d) by (rewrite multi_grad_len; auto; intros k' Hk'; rewrite LP; auto).
  assert (LS : length (vsub (P i) (P i)) = d) by (apply length_vsub; auto).
  assert (LR : length (rnoise k dt (vsub (P i) (P i)) z) = d) by (apply length_rnoise; auto).
  assert (Ex : vadd (vadd (vscal (la * dt) (vsub (P i) (P i))) (vscal fac (multi_grad_sq cs (P i)))) (vscal sg (rnoise k dt (vsub (P i) (P i)) z)) = vscal fac (multi_grad_sq cs (P i))).
  { pose proof (rmove_same k la dt sg (P i) z Hk ltac:(rewrite LP; auto)) as RM. assert (L2 : length (vadd (vscal (la * dt) (vsub (P i) (P i))) (vscal fac (multi_grad_sq cs (P i)))) = d) by (apply length_vadd; rewrite ?length_vscal; auto).
    apply (coord_ext _ _ d). apply length_vadd; rewrite ?length_vscal; auto. rewrite length_vscal; auto.
    intros r _. pose proof (f_equal (coord r) RM) as Cr. rewrite (coord_rmove _ _ _ _ _ _ _ _ d) in Cr by auto.
    rewrite coord_vadd by (rewrite length_vscal; congruence). rewrite coord_vadd by (rewrite !length_vscal; congruence). rewrite !coord_vscal, coord_vsub by auto. lra. }
  rewrite Ex in HW. assert (Lv : length (vscal fac (multi_grad_sq cs (P i))) = d) by (rewrite length_vscal; auto). destruct (HGs fac (P i) _ w (LP i) Lv HW) as (y & Hy & ->). destruct (HP i y Hij Hy) as [Ly Sy].
  exists (P (S i)). split; auto. rewrite HC. cbn [c cbo_cfg c_pp c_vsub]. rewrite floats_sub, Sy, Hpp by auto. auto.
Qed.

(** the linear system of one sphere at a point that is moved by the constraint only *)
Definition ratio (r fac t : R) : R := (1 + 8 * fac * t) / (1 + 8 * fac * t + 4 * fac * (t - r * r)).
Lemma sphere_system : forall solve r p fac y, solver solve -> 1 + 4 * fac * (sqnorm p - r * r) <> 0 -> 1 + 8 * fac * sqnorm p + 4 * fac * (sqnorm p - r * r) <> 0 ->
  multi_solve solve [CSphere r] p (vscal fac (multi_grad_sq [CSphere r] p)) fac = MVec (Some y) -> length y = length p /\ vsub p y = vscal (ratio r fac (sqnorm p)) p.
Proof.
  intros solve r p fac y HS N1 N2 H. cbn [multi_solve] in H. injection H as H. set (d := length p).
  assert (FT : forall k', In k' [CSphere r] -> fits k' (length p)) by (intros k' [<-|[]]; exact I).
  assert (Lv : length (vscal fac (multi_grad_sq [CSphere r] p)) = length p) by (rewrite length_vscal, multi_grad_len; auto).
  destruct (hess_solve_ok solve (CSphere r) p _ fac y HS Lv H) as [Ly Hy].
  split; auto. fold d in Ly, Hy. set (S := sqnorm p) in *. set (c0 := S - r * r) in *.
  assert (Ec : con (CSphere r) p = c0) by (cbn [con]; unfold c0, S; rewrite <- vnorm_sq; ring).
  assert (Hy' : forall i, (i < d)%nat -> (1 + 4 * fac * c0) * coord i y + 8 * fac * dot p y * coord i p = 4 * fac * c0 * coord i p).
  { intros i Hi. pose proof (Hy i Hi) as E. rewrite coord_vscal, multi_grad_coord in E by auto. unfold con_grad_sq in E. cbn [map con_grad] in E. unfold Rsum in E. cbn [fold_right] in E.
    rewrite !coord_vscal, Ec in E.
    assert (M : msum d (fun j => con_hess_sq (CSphere r) p i j * coord j y) = 8 * coord i p * dot p y + 4 * c0 * coord i y).
    { rewrite (dot_msum p y d) by auto. rewrite <- msum_scal. rewrite <- (msum_delta d i (fun j => coord j y)) by auto. rewrite <- msum_scal, <- msum_add. apply msum_ext. intros j Hj.
      unfold con_hess_sq. rewrite Ec. cbn [con_grad con_hess]. rewrite !coord_vscal. unfold eye. destruct (Nat.eqb i j); ring. }
    rewrite M in E. lra. }
  assert (E1 : vadd (vscal (1 + 4 * fac * c0) y) (vscal (8 * fac * dot p y) p) = vscal (4 * fac * c0) p).
  { apply (coord_ext _ _ d). apply length_vadd; rewrite length_vscal; auto. rewrite length_vscal; auto. intros i Hi. rewrite coord_vadd by (rewrite !length_vscal; auto). rewrite !coord_vscal. auto. }
  assert (E2 : (1 + 4 * fac * c0) * dot p y + 8 * fac * dot p y * S = 4 * fac * c0 * S).
  { apply (f_equal (dot p)) in E1. rewrite dot_vadd_r, !dot_vscal_r in E1 by (rewrite !length_vscal; auto). exact E1. }
  assert (E3 : dot p y = 4 * fac * c0 * S / (1 + 8 * fac * S + 4 * fac * c0)). { apply (Rmult_eq_reg_r (1 + 8 * fac * S + 4 * fac * c0)); auto. replace (4 * fac * c0 * S / (1 + 8 * fac * S + 4 * fac * c0) * (1 + 8 * fac * S + 4 * fac * c0)) with (4 * fac * c0 * S) by (field; auto). lra. }
  apply (coord_ext _ _ d). apply length_vsub; auto. rewrite length_vscal; auto. intros i Hi. rewrite coord_vsub by auto. rewrite coord_vscal. unfold ratio. fold c0.
  specialize (Hy' i Hi). rewrite E3 in Hy'. apply (Rmult_eq_reg_l (1 + 4 * fac * c0)); auto.
  assert (E4 : (1 + 4 * fac * c0) * coord i y = 4 * fac * c0 * coord i p - 8 * fac * (4 * fac * c0 * S / (1 + 8 * fac * S + 4 * fac * c0)) * coord i p) by lra.
  rewrite Rmult_minus_distr_l, E4. field. auto.
Qed.

(** outside the sphere: the radius decreases to r geometrically *)
Lemma ratio_outside : forall r fac rho, 0 < r -> 0 <= fac -> r <= rho ->
  0 < ratio r fac (rho * rho) /\ 0 <= ratio r fac (rho * rho) * rho - r <= (1 + 8 * fac * (r * r)) / (1 + 12 * fac * (r * r)) * (rho - r).
Proof.
  intros r fac rho Hr Hf Hrho. unfold ratio. assert (Q : r * r <= rho * rho) by nra. assert (Q0 : 0 < r * r) by nra. set (D := 1 + 8 * fac * (rho * rho) + 4 * fac * (rho * rho - r * r)).
  assert (D0 : 0 < D) by (unfold D; nra). assert (N0 : 0 < 1 + 8 * fac * (rho * rho)) by nra. split; [apply Rdiv_lt_0_compat; auto|].
  replace ((1 + 8 * fac * (rho * rho)) / D * rho - r) with ((rho - r) * ((1 + 4 * fac * ((rho - r) * (2 * rho + r))) / D)) by (unfold D; field; fold D; lra).
  assert (G0 : 0 <= (rho - r) * (2 * rho + r)) by (apply Rmult_le_pos; lra).
  assert (N1 : 0 <= 1 + 4 * fac * ((rho - r) * (2 * rho + r))) by nra.
  split. { apply Rmult_le_pos; [lra|]. apply Rmult_le_pos; auto. left. apply Rinv_0_lt_compat; auto. }
  rewrite (Rmult_comm _ (rho - r)). apply Rmult_le_compat_l; [lra|]. assert (E0 : 0 < 1 + 12 * fac * (r * r)) by nra.
  apply (Rmult_le_reg_r (D * (1 + 12 * fac * (r * r)))); [nra|].
  replace ((1 + 4 * fac * ((rho - r) * (2 * rho + r))) / D * (D * (1 + 12 * fac * (r * r)))) with ((1 + 4 * fac * ((rho - r) * (2 * rho + r))) * (1 + 12 * fac * (r * r))) by (field; lra).
  replace ((1 + 8 * fac * (r * r)) / (1 + 12 * fac * (r * r)) * (D * (1 + 12 * fac * (r * r)))) with ((1 + 8 * fac * (r * r)) * D) by (field; lra).
  unfold D. assert (A : 0 <= fac * fac) by nra. set (u := rho - r) in *. assert (Hu : 0 <= u) by (unfold u; lra). replace rho with (r + u) by (unfold u; ring). clearbody u. clear - A Hf Hr Hu.
  assert (0 <= fac * (r * u)) by (apply Rmult_le_pos; auto; nra). assert (0 <= fac * (u * u)) by (apply Rmult_le_pos; auto; nra). assert (0 <= fac * (r * r)) by (apply Rmult_le_pos; auto; nra).
  assert (0 <= (fac * fac) * (r * r * (r * u))) by (apply Rmult_le_pos; auto; apply Rmult_le_pos; nra). assert (0 <= (fac * fac) * (r * r * (u * u))) by (apply Rmult_le_pos; auto; apply Rmult_le_pos; nra).
  assert (0 <= (fac * fac) * (r * r * (r * r))) by (apply Rmult_le_pos; auto; apply Rmult_le_pos; nra). nra.
Qed.

Fixpoint radial (r fac : R) (p : list R) (j : nat) : list R := match j with O => p | S i => let q := radial r fac p i in vscal (ratio r fac (sqnorm q)) q end.
Lemma radial_len : forall r fac p j, length (radial r fac p j) = length p.
Proof. induction j as [|j IH]; auto. cbn [radial]. rewrite length_vscal. auto. Qed.
Lemma vnorm_vscal : forall t p, 0 <= t -> vnorm (vscal t p) = t * vnorm p.
Proof.
  intros t p Ht. unfold vnorm, sqnorm. rewrite dot_vscal_l, dot_vscal_r, <- Rmult_assoc. rewrite sqrt_mult_alt by nra. rewrite sqrt_square by auto. auto.
Qed.
Lemma radial_outside : forall r fac p j, 0 < r -> 0 <= fac -> r <= vnorm p ->
  0 <= vnorm (radial r fac p j) - r <= ((1 + 8 * fac * (r * r)) / (1 + 12 * fac * (r * r))) ^ j * (vnorm p - r).
Proof.
  intros r fac p j Hr Hf Hp. induction j as [|j IH]. { cbn [radial pow]. lra. }
  cbn [radial pow]. set (q := radial r fac p j) in *. destruct (ratio_outside r fac (vnorm q) Hr Hf ltac:(lra)) as [A B].
  assert (E : vnorm q * vnorm q = sqnorm q) by apply vnorm_sq. rewrite E in A, B. rewrite vnorm_vscal by lra. split; [lra|]. eapply Rle_trans; [apply B|].
  assert (K : 0 <= (1 + 8 * fac * (r * r)) / (1 + 12 * fac * (r * r))) by (apply Rmult_le_pos; [nra|]; left; apply Rinv_0_lt_compat; nra).
  revert K IH. generalize ((1 + 8 * fac * (r * r)) / (1 + 12 * fac * (r * r))). intros t K IH. rewrite Rmult_assoc. apply Rmult_le_compat_l; lra.
Qed.

Theorem dc_sphere : forall f k pp b partial cat ks save solve r g eps la dt sg d m n s log j s' u' p, let c := cbo_cfg f k pp NoCorr b partial cat ks save in
  solver solve -> k <> NConst -> 0 < r -> applies_constraints d solve [CSphere r] g -> 0 < eps -> finite_obj d f -> (forall q, length q = d -> pp (floats q) = floats q) ->
  vexec (dc_inner (Some g) (Fin eps)) (fun _ => tt) c n (s, tt) log -> finite_alpha s -> parameters la dt sg s ->
  length p = d -> r <= vnorm p -> run_in (fun q => q = p) s m d -> travels (dc_inner (Some g) (Fin eps)) c d (s, tt) j (s', u') ->
  exists p', run_in (fun q => q = p') s' m d /\ 0 <= vnorm p' - r <= ((1 + 8 * (dt / eps) * (r * r)) / (1 + 12 * (dt / eps) * (r * r))) ^ j * (vnorm p - r).
Proof.
  intros f k pp b partial cat ks save solve r g eps la dt sg d m n s log j s' u' p c HSo Hk Hr HG He HF Hpp H FA PA Lp Hp R0 T.
  assert (Hfac : 0 <= dt / eps) by (apply Rmult_le_pos; [apply PA|left; apply Rinv_0_lt_compat; auto]).
  exists (radial r (dt / eps) p j). split; [|apply radial_outside; auto].
  apply (dc_follow f k pp b partial cat ks save solve [CSphere r] g eps la dt sg d m n s log j s' u' (radial r (dt / eps) p)); auto; [lra|intros k' [<-|[]]; exact I|intros i; rewrite radial_len; auto|].
  intros i y Hi Hy. set (q := radial r (dt / eps) p i) in *. destruct (radial_outside r (dt / eps) p i Hr Hfac Hp) as [Q _]. fold q in Q. pose proof (vnorm_sq q) as E.
  assert (A : 0 <= sqnorm q - r * r) by (rewrite <- E; nra).
  destruct (sphere_system solve r q (dt / eps) y HSo) as [Ly Sy]; auto.
  - assert (0 <= dt / eps * (sqnorm q - r * r)) by (apply Rmult_le_pos; auto). lra.
  - assert (0 <= dt / eps * (sqnorm q - r * r)) by (apply Rmult_le_pos; auto). assert (0 <= dt / eps * sqnorm q) by (apply Rmult_le_pos; auto; nra). lra.
  - split; [|exact Sy]. rewrite Ly. unfold q. rewrite radial_len. auto.
Qed.

(** near the centre of a large sphere: the radius does not increase *)
Lemma ratio_inside : forall r fac t, 0 < fac -> 1 < 2 * fac * (r * r) -> 0 <= t < (2 * fac * (r * r) - 1) / (10 * fac) ->
  1 + 4 * fac * (t - r * r) <> 0 /\ 1 + 8 * fac * t + 4 * fac * (t - r * r) <> 0 /\ Rabs (ratio r fac t) < 1.
Proof.
  intros r fac t Hf Hr [T0 T1]. assert (T2 : t * (10 * fac) < 2 * fac * (r * r) - 1).
  { apply (Rmult_lt_compat_r (10 * fac)) in T1; [|lra]. replace ((2 * fac * (r * r) - 1) / (10 * fac) * (10 * fac)) with (2 * fac * (r * r) - 1) in T1 by (field; lra). auto. }
  assert (T3 : 0 <= fac * t) by (apply Rmult_le_pos; lra). split; [lra|]. assert (D0 : 1 + 8 * fac * t + 4 * fac * (t - r * r) < 0) by lra. split; [lra|].
  unfold ratio. set (D := 1 + 8 * fac * t + 4 * fac * (t - r * r)) in *. unfold Rdiv. rewrite Rabs_mult, Rabs_inv, (Rabs_left D), (Rabs_right (1 + 8 * fac * t)) by lra.
  apply (Rmult_lt_reg_r (- D)); [lra|]. rewrite Rmult_assoc, Rinv_l by lra. unfold D. lra.
Qed.
Lemma radial_inside : forall r fac p j, 0 < fac -> 1 < 2 * fac * (r * r) -> sqnorm p < (2 * fac * (r * r) - 1) / (10 * fac) ->
  sqnorm (radial r fac p j) <= sqnorm p /\ (sqnorm p <> 0 -> (1 <= j)%nat -> sqnorm (radial r fac p j) < sqnorm p).
Proof.
  intros r fac p j Hf Hr Hp. induction j as [|j [IH1 IH2]]; [split; [cbn [radial]; lra|lia]|]. cbn [radial]. set (q := radial r fac p j) in *.
  assert (Q0 : 0 <= sqnorm q) by apply sqnorm_nonneg. destruct (ratio_inside r fac (sqnorm q) Hf Hr) as (_ & _ & A); [lra|]. set (k := ratio r fac (sqnorm q)) in *.
  assert (K : k * k < 1). { replace (k * k) with (Rabs k * Rabs k) by (rewrite <- Rabs_mult; apply Rabs_right; nra). pose proof (Rabs_pos k). nra. }
  assert (E : sqnorm (vscal k q) = k * k * sqnorm q) by (unfold sqnorm; rewrite dot_vscal_l, dot_vscal_r; ring). rewrite E. split; [nra|]. intros Hp0 _. pose proof (sqnorm_nonneg p).
  destruct (Req_dec (sqnorm q) 0) as [->|N]; [lra|]. nra.
Qed.

Theorem dc_sphere_centre : forall f k pp b partial cat ks save solve r g eps la dt sg d m n s log j s' u' p, let c := cbo_cfg f k pp NoCorr b partial cat ks save in
  solver solve -> k <> NConst -> applies_constraints d solve [CSphere r] g -> 0 < eps -> 0 < dt -> 1 < 2 * (dt / eps) * (r * r) -> finite_obj d f -> (forall q, length q = d -> pp (floats q) = floats q) ->
  vexec (dc_inner (Some g) (Fin eps)) (fun _ => tt) c n (s, tt) log -> finite_alpha s -> parameters la dt sg s ->
  length p = d -> 0 < sqnorm p < (2 * (dt / eps) * (r * r) - 1) / (10 * (dt / eps)) -> run_in (fun q => q = p) s m d -> travels (dc_inner (Some g) (Fin eps)) c d (s, tt) j (s', u') -> (1 <= j)%nat ->
  exists p', run_in (fun q => q = p') s' m d /\ Rabs (c_value (CSphere r) p) < Rabs (c_value (CSphere r) p').
Proof.
  intros f k pp b partial cat ks save solve r g eps la dt sg d m n s log j s' u' p c HSo Hk HG He Hdt Hr HF Hpp H FA PA Lp Hp R0 T Hj.
  assert (Hfac : 0 < dt / eps) by (apply Rdiv_lt_0_compat; auto). set (fac := dt / eps) in *.
  exists (radial r fac p j). split.
  - apply (dc_follow f k pp b partial cat ks save solve [CSphere r] g eps la dt sg d m n s log j s' u' (radial r fac p)); auto; [lra|intros k' [<-|[]]; exact I|intros i; rewrite radial_len; auto|].
    fold fac. intros i y Hi Hy. set (q := radial r fac p i) in *. destruct (radial_inside r fac p i Hfac Hr) as [Q _]; [lra|]. fold q in Q.
    pose proof (sqnorm_nonneg q). destruct (ratio_inside r fac (sqnorm q) Hfac Hr) as (A & B & _); [lra|]. destruct (sphere_system solve r q fac y HSo A B Hy) as [Ly Sy].
    split; [|exact Sy]. rewrite Ly. unfold q. rewrite radial_len. auto.
  - destruct (radial_inside r fac p j Hfac Hr) as [_ Q]; [lra|]. specialize (Q ltac:(lra) Hj). rewrite <- !con_value by exact I. cbn [con].
    assert (E : forall q, vnorm q ^ 2 - r ^ 2 = sqnorm q - r * r) by (intros q; rewrite <- vnorm_sq; ring). rewrite !E.
    assert (S : sqnorm p < r * r).
    { destruct Hp as [_ Hp]. apply (Rmult_lt_compat_r (10 * fac)) in Hp; [|lra]. replace ((2 * fac * (r * r) - 1) / (10 * fac) * (10 * fac)) with (2 * fac * (r * r) - 1) in Hp by (field; lra).
      apply (Rmult_lt_reg_r (10 * fac)); [lra|]. pose proof (Rle_0_sqr r) as Z. unfold Rsqr in Z. assert (0 <= fac * (r * r)) by (apply Rmult_le_pos; lra). lra. }
    rewrite !Rabs_left by lra. lra.
Qed.
