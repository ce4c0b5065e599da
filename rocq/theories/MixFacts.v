(** * Facts on Gaussian mixtures *)
From Coq Require Import List Arith Bool Reals Lra Lia.
From Verif Require Import Scalar Np Nd RVec RVecFacts MatSqrt MatSpec MatFacts Squeeze SqueezeFacts Objective Objectives MinSpec MinFacts3 Mixture MixSpec.
Import ListNotations.
Open Scope R_scope.

Lemma mquad_vdv : forall d V c v, mquad d (vdv d V c) v = msum d (fun k => c k * msum d (fun i => v i * V i k) ^ 2).
Proof.
  intros d V c v. unfold mquad, vdv.
  rewrite (msum_ext d _ (fun i => msum d (fun k => msum d (fun j => c k * (v i * V i k) * (v j * V j k))))).
  2:{ intros i Hi. rewrite msum_swap. apply msum_ext. intros j Hj. rewrite <- msum_scal, <- msum_scal_r. apply msum_ext. intros. ring. }
  rewrite msum_swap. apply msum_ext. intros k Hk.
  rewrite (msum_ext d _ (fun i => (c k * (v i * V i k)) * msum d (fun j => v j * V j k))).
  2:{ intros i Hi. rewrite <- msum_scal. apply msum_ext. intros. ring. }
  rewrite msum_scal_r. rewrite msum_scal. cbn [pow]. ring.
Qed.
Lemma msum_pos_one : forall d f k, (forall i, (i < d)%nat -> 0 <= f i) -> (k < d)%nat -> 0 < f k -> 0 < msum d f.
Proof.
  induction d; intros f k H Hk P; [lia|]. rewrite msum_S. destruct (Nat.eq_dec k d) as [->|ne].
  - assert (0 <= msum d f) by (apply msum_nonneg; intros; apply H; lia). lra.
  - assert (0 < msum d f) by (apply (IHd f k); [intros; apply H; lia|lia|auto]). specialize (H d ltac:(lia)). lra.
Qed.

(** positive definite = positive eigenvalues *)
Lemma pd_eigen : forall d C s V, eigen d C s V -> (positive_definite d C <-> forall k, (k < d)%nat -> 0 < s k).
Proof.
  intros d C s V HE. pose proof (eigen_vdv _ _ _ _ HE) as EC. destruct HE as (O1 & O2 & _). split.
  - intros PD k Hk. specialize (PD (fun i => V i k)).
    assert (N : msum d (fun i => V i k * V i k) = 1) by (pose proof (O1 k k Hk Hk) as X; unfold mmul, mtr, mid in X; rewrite Nat.eqb_refl in X; exact X).
    assert (Q : mquad d C (fun i => V i k) = s k).
    { rewrite (mquad_ext d C _ _ EC), mquad_vdv. rewrite (msum_ext d _ (fun l => if Nat.eqb k l then s l else 0)).
      - apply msum_delta; auto.
      - intros l Hl. pose proof (O1 k l Hk Hl) as X. unfold mmul, mtr, mid in X. rewrite X. destruct (k =? l)%nat; ring. }
    rewrite <- Q. apply PD. destruct (Classical_Prop.classic (exists i, (i < d)%nat /\ V i k <> 0)) as [|NE]; auto. exfalso.
    rewrite msum_zero in N; [lra|]. intros i Hi. destruct (Req_dec (V i k) 0) as [->|ne]; [ring|]. exfalso. apply NE. eauto.
  - intros PS v (i & Hi & Hv). rewrite (mquad_ext d C _ _ EC), mquad_vdv.
    destruct (Classical_Prop.classic (exists k, (k < d)%nat /\ msum d (fun i => v i * V i k) <> 0)) as [(k & Hk & NZ)|AZ].
    + apply (msum_pos_one d _ k); auto.
      * intros l Hl. specialize (PS l Hl). apply Rmult_le_pos; [lra|apply pow2_ge_0].
      * apply Rmult_lt_0_compat; [apply PS; auto|]. pose proof (Rlt_0_sqr _ NZ) as X. unfold Rsqr in X. cbn [pow]. lra.
    + exfalso. apply Hv.
      assert (E : msum d (fun k => V i k * msum d (fun j => v j * V j k)) = v i).
      { rewrite (msum_ext d _ (fun k => msum d (fun j => v j * (V i k * V j k)))) by (intros; rewrite <- msum_scal; apply msum_ext; intros; ring).
        rewrite msum_swap. rewrite (msum_ext d _ (fun j => if Nat.eqb i j then v j else 0)); [apply (msum_delta d i v); auto|].
        intros j Hj. rewrite msum_scal. pose proof (O2 i j Hi Hj) as X. unfold mmul, mtr, mid in X. rewrite X. destruct (i =? j)%nat; ring. }
      rewrite <- E. apply msum_zero. intros k Hk. destruct (Req_dec (msum d (fun j => v j * V j k)) 0) as [->|ne]; [ring|]. exfalso. apply AZ. eauto.
Qed.

(** the inverse of V diag(s) V^T *)
Lemma inverse_vdv : forall d C s V P, eigen d C s V -> (forall k, (k < d)%nat -> 0 < s k) -> inverse_of d C P -> meq d P (vdv d V (fun k => 1 / s k)).
Proof.
  intros d C s V P HE PS HI i j Hi Hj. pose proof (eigen_vdv _ _ _ _ HE) as EC. destruct HE as (O1 & O2 & _).
  set (Q := vdv d V (fun k => 1 / s k)).
  assert (CQ : meq d (mmul d C Q) mid).
  { intros a b Ha Hb. transitivity (mmul d (vdv d V s) Q a b). { unfold mmul. apply msum_ext. intros k Hk. rewrite (EC a k Ha Hk). reflexivity. }
    unfold Q. rewrite vdv_mul by auto. unfold vdv. rewrite (msum_ext d _ (fun k => V a k * V b k)).
    - exact (O2 a b Ha Hb).
    - intros k Hk. specialize (PS k Hk). field. lra. }
  (* P = P (C Q) = (P C) Q = Q *)
  transitivity (msum d (fun k => P i k * mmul d C Q k j)).
  { rewrite (msum_ext d _ (fun k => if Nat.eqb j k then P i k else 0)); [symmetry; apply (msum_delta d j (fun k => P i k)); auto|].
    intros k Hk. rewrite (CQ k j Hk Hj). unfold mid. rewrite (Nat.eqb_sym j k). destruct (k =? j)%nat; ring. }
  unfold mmul. rewrite (msum_ext d _ (fun k => msum d (fun l => P i k * C k l * Q l j))) by (intros; rewrite <- msum_scal; apply msum_ext; intros; ring).
  rewrite msum_swap. rewrite (msum_ext d _ (fun l => if Nat.eqb i l then Q l j else 0)); [apply (msum_delta d i (fun l => Q l j)); auto|].
  intros l Hl. rewrite msum_scal_r. pose proof (HI i l Hi Hl) as X. unfold mmul, mid in X. rewrite X. destruct (i =? l)%nat; ring.
Qed.
Lemma prodn_pos : forall d f, (forall k, (k < d)%nat -> 0 < f k) -> 0 < prodn d f.
Proof. induction d; intros f H; cbn; [lra|]. apply Rmult_lt_0_compat; [apply IHd; intros; apply H; lia|apply H; lia]. Qed.
Lemma ln_prodn : forall d f, (forall k, (k < d)%nat -> 0 < f k) -> ln (prodn d f) = msum d (fun k => ln (f k)).
Proof.
  induction d; intros f H; [cbn; apply ln_1|]. cbn [prodn]. rewrite msum_S, ln_mult, IHd; auto. apply prodn_pos. intros; apply H; lia.
Qed.
Lemma freeze_inv : forall eigh m C g, mvn_freeze eigh m C = Ok g -> mv_mean g = m /\ (forall k, (k < length m)%nat -> 0 < fst (eigh (length m) C) k) /\
  g = mkmvn m (msum (length m) (fun k => ln (fst (eigh (length m) C) k))) (fun i j => snd (eigh (length m) C) i j * sqrt (1 / fst (eigh (length m) C) j)).
Proof.
  intros eigh m C g H. unfold mvn_freeze in H. destruct (eigh (length m) C) as [s u]. cbn [fst snd]. destruct (forallb _ _) eqn:E; [|discriminate]. inversion H; subst. split; [reflexivity|]. split; [|reflexivity].
  intros k Hk. rewrite forallb_forall in E. apply Rltb_true. apply E. apply in_seq. lia.
Qed.

Theorem pdf_density : forall eigh m C g P D x, eigh_ok eigh (length m) C -> mvn_freeze eigh m C = Ok g -> inverse_of (length m) C P -> det_is eigh (length m) C D ->
  mvn_pdf g x = density m P D x.
Proof.
  intros eigh m C g P D x EO HF HI HD. destruct (freeze_inv _ _ _ _ HF) as (_ & PS & ->). unfold mvn_pdf, density. cbn [mv_mean mv_logdet mv_U].
  pose proof EO as HE. unfold eigh_ok in HE. set (d := length m) in *. set (s := fst (eigh d C)) in *. set (V := snd (eigh d C)) in *.
  rewrite (mquad_ext d P _ _ (inverse_vdv d C s V P HE PS HI)), mquad_vdv.
  assert (M : msum d (fun j => msum d (fun i => (nth i x 0 - nth i m 0) * (V i j * sqrt (1 / s j))) ^ 2) = msum d (fun k => 1 / s k * msum d (fun i => (nth i x 0 - nth i m 0) * V i k) ^ 2)).
  { apply msum_ext. intros k Hk. rewrite (msum_ext d _ (fun i => sqrt (1 / s k) * ((nth i x 0 - nth i m 0) * V i k))) by (intros; ring). rewrite msum_scal, Rpow_mult_distr.
    f_equal. rewrite <- Rsqr_pow2, Rsqr_sqrt; auto. specialize (PS k Hk). apply Rlt_le, Rdiv_lt_0_compat; lra. }
  rewrite M. set (q := msum d (fun k => 1 / s k * _)). unfold det_is in HD. fold s in HD. subst D. rewrite <- ln_prodn by auto.
  assert (PI0 := PI_RGT_0). assert (P0 : 0 < (2 * PI) ^ d) by (apply pow_lt; lra). assert (D0 : 0 < prodn d s) by (apply prodn_pos; auto).
  assert (SQ : / sqrt ((2 * PI) ^ d * prodn d s) = exp (- (1 / 2) * (INR d * ln (2 * PI) + ln (prodn d s)))).
  { assert (W : sqrt ((2 * PI) ^ d * prodn d s) = exp (1 / 2 * (INR d * ln (2 * PI) + ln (prodn d s)))).
    { apply sqrt_lem_1; [apply Rlt_le, Rmult_lt_0_compat; auto|apply Rlt_le, exp_pos|]. rewrite <- exp_plus. replace (1 / 2 * (INR d * ln (2 * PI) + ln (prodn d s)) + _) with (INR d * ln (2 * PI) + ln (prodn d s)) by field.
      rewrite exp_plus, exp_ln by auto. f_equal. rewrite <- Rpower_pow by lra. reflexivity. }
    rewrite W, <- exp_Ropp. f_equal. field. }
  unfold Rdiv at 2. rewrite SQ, <- exp_plus. f_equal. field.
Qed.

Lemma pdf_pos : forall g x, 0 < mvn_pdf g x.
Proof. intros. apply exp_pos. Qed.
Lemma mm_sum : forall gs x, fold_left (fun acc g => acc + mvn_pdf g x) gs 0 = Rsum (map (fun g => mvn_pdf g x) gs).
Proof.
  intros gs x. assert (H : forall l a, fold_left (fun acc g => acc + mvn_pdf g x) l a = a + Rsum (map (fun g => mvn_pdf g x) l)).
  { induction l as [|g l IH]; intros a; cbn [fold_left map]; [cbn; lra|]. rewrite IH, Rsum_cons. lra. }
  rewrite H. lra.
Qed.
Lemma mm_sum_pos : forall gs x, gs <> [] -> 0 < Rsum (map (fun g => mvn_pdf g x) gs).
Proof. intros [|g gs] x H; [congruence|]. cbn [map]. rewrite Rsum_cons. pose proof (pdf_pos g x). assert (0 <= Rsum (map (fun g => mvn_pdf g x) gs)) by (apply Rsum_map_nonneg; intros; apply Rlt_le, pdf_pos). lra. Qed.
Lemma mm_value : forall gs x, mm_apply gs x = match gs with [] => PInf | _ => Fin (- ln (Rsum (map (fun g => mvn_pdf g x) gs))) end.
Proof.
  intros gs x. unfold mm_apply. rewrite mm_sum. destruct gs as [|g gs].
  - cbn. destruct (Rltb 0 0) eqn:E; auto. apply Rltb_true in E. lra.
  - assert (E : Rltb 0 (Rsum (map (fun g => mvn_pdf g x) (g :: gs))) = true) by (apply Rltb_true, mm_sum_pos; discriminate). rewrite E. reflexivity.
Qed.

(** the objective is the negative logarithm of the sum of the densities *)
Theorem mm_mixture : forall eigh means covs gs Ps Ds x, length means = length covs -> means <> [] -> mm_init eigh means covs = Ok gs ->
  length Ps = length means -> length Ds = length means ->
  (forall i m C P D, nth_error means i = Some m -> nth_error covs i = Some C -> nth_error Ps i = Some P -> nth_error Ds i = Some D ->
     eigh_ok eigh (length m) C /\ inverse_of (length m) C P /\ det_is eigh (length m) C D) ->
  mm_apply gs x = Fin (- ln (Rsum (map (fun q => density (fst (fst q)) (snd (fst q)) (snd q) x) (combine (combine means Ps) Ds)))).
Proof.
  intros eigh means covs gs Ps Ds x HL NE HI LP LD HC. rewrite mm_value.
  assert (X : map (fun g => mvn_pdf g x) gs = map (fun q => density (fst (fst q)) (snd (fst q)) (snd q) x) (combine (combine means Ps) Ds)).
  { clear NE. revert covs gs Ps Ds HL HI LP LD HC. induction means as [|m means IH]; intros [|C covs] gs [|P Ps] [|D Ds] HL HI LP LD HC; try discriminate; [inversion HI; reflexivity|].
    cbn [mm_init] in HI. destruct (mvn_freeze eigh m C) as [g|] eqn:E1; [|discriminate]. cbn [bind] in HI. destruct (mm_init eigh means covs) as [gs'|] eqn:E2; [|discriminate]. inversion HI; subst. cbn [combine map fst snd].
    destruct (HC 0%nat m C P D) as (H1 & H2 & H3); try reflexivity. f_equal; [eapply pdf_density; eauto|]. apply (IH covs); auto. intros i. apply (HC (S i)). }
  rewrite X. destruct gs as [|g gs]; [|reflexivity]. exfalso. destruct means as [|m means]; [congruence|]. destruct covs as [|C covs]; [discriminate|].
  cbn [mm_init] in HI. destruct (mvn_freeze eigh m C) as [g|]; [|discriminate]. cbn [bind] in HI. destruct (mm_init eigh means covs); discriminate.
Qed.

(** it is constructible exactly if all used covariances are positive definite *)
Theorem mm_accepts : forall eigh means covs, (forall m C, In (m, C) (combine means covs) -> eigh_ok eigh (length m) C) ->
  ((exists gs, mm_init eigh means covs = Ok gs) <-> forall m C, In (m, C) (combine means covs) -> positive_definite (length m) C).
Proof.
  intros eigh means covs. revert covs. induction means as [|m means IH]; intros covs SY; [split; [intros _ q C []|intros _; eexists; reflexivity]|].
  destruct covs as [|C covs]; [split; [intros _ q D []|intros _; eexists; reflexivity]|]. cbn [mm_init combine In] in *.
  assert (SY' : forall m C, In (m, C) (combine means covs) -> eigh_ok eigh (length m) C) by (intros; apply SY; auto). specialize (IH covs SY').
  pose proof (pd_eigen _ _ _ _ (SY m C (or_introl eq_refl))) as PE.
  assert (F : (exists g, mvn_freeze eigh m C = Ok g) <-> positive_definite (length m) C).
  { rewrite PE. split.
    - intros (g & E). apply (freeze_inv _ _ _ _ E).
    - intros H. unfold mvn_freeze. destruct (eigh (length m) C) as [s u]. cbn [fst] in H. assert (E : forallb (fun k => Rltb 0 (s k)) (seq 0 (length m)) = true); [|rewrite E; eauto].
      apply forallb_forall. intros k Hk. apply in_seq in Hk. apply Rltb_true, H. lia. }
  split.
  - intros (gs & E) q D [HQ|HQ].
    + inversion HQ; subst. apply F. destruct (mvn_freeze eigh q D); [eauto|discriminate].
    + apply IH; auto. destruct (mvn_freeze eigh m C); [|discriminate]. cbn [bind] in E. destruct (mm_init eigh means covs); [eauto|discriminate].
  - intros H. destruct (proj2 F) as (g & ->). { apply H; auto. } destruct (proj2 IH) as (gs & ->). { intros; apply H; auto. } cbn [bind]. eauto.
Qed.

(** unequal lengths: the surplus is dropped *)
Lemma mm_zip_means : forall eigh means covs extra, length means = length covs -> mm_init eigh (means ++ extra) covs = mm_init eigh means covs.
Proof. induction means as [|m means IH]; intros [|C covs] extra H; try discriminate; cbn [app mm_init]; [destruct extra; reflexivity|]. rewrite IH by auto. reflexivity. Qed.
Lemma mm_zip_covs : forall eigh means covs extra, length means = length covs -> mm_init eigh means (covs ++ extra) = mm_init eigh means covs.
Proof. induction means as [|m means IH]; intros [|C covs] extra H; try discriminate; cbn [app mm_init]; [reflexivity|]. rewrite IH by auto. reflexivity. Qed.
Lemma mm_default_covs : forall eigh m means, mm_new eigh (Some (m :: means)) None = mm_new eigh (Some [m]) None.
Proof. intros. unfold mm_new. cbn [mm_init]. destruct means; reflexivity. Qed.
Lemma mm_default_means : forall eigh C covs, mm_new eigh None (Some (C :: covs)) = mm_new eigh None (Some [C]).
Proof. intros. unfold mm_new. cbn [mm_init]. reflexivity. Qed.

(** bounds *)
Definition peak (g : mvn) : R := exp (- (1 / 2) * (INR (length (mv_mean g)) * ln (2 * PI) + mv_logdet g)).
Lemma pdf_peak : forall g x, mvn_pdf g x <= peak g /\ mvn_pdf g (mv_mean g) = peak g.
Proof.
  intros g x. unfold mvn_pdf, peak. split.
  - assert (Q : 0 <= msum (length (mv_mean g)) (fun j => msum (length (mv_mean g)) (fun i => (nth i x 0 - nth i (mv_mean g) 0) * mv_U g i j) ^ 2)) by (apply msum_nonneg; intros; apply pow2_ge_0).
    destruct (Req_dec (msum (length (mv_mean g)) (fun j => msum (length (mv_mean g)) (fun i => (nth i x 0 - nth i (mv_mean g) 0) * mv_U g i j) ^ 2)) 0) as [->|ne]; [right; f_equal; ring|]. left. apply exp_increasing. nra.
  - f_equal. rewrite (msum_zero _ (fun j => _)); [ring|]. intros j Hj. rewrite (msum_zero _ (fun i => _)); [ring|]. intros; ring.
Qed.
Lemma ln_mono : forall a b, 0 < a -> a <= b -> ln a <= ln b.
Proof. intros a b Ha [H|H]; [left; apply ln_increasing; auto|right; congruence]. Qed.
Theorem mm_bounds : forall gs x w, mm_apply gs x = Fin w -> - ln (Rsum (map (fun g => mvn_pdf g (mv_mean g)) gs)) <= w /\ forall g, In g gs -> w <= - ln (mvn_pdf g x).
Proof.
  intros gs x w H. rewrite mm_value in H. destruct gs as [|g0 gs0]; [discriminate|]. set (gs := g0 :: gs0) in *. assert (NE : gs <> []) by discriminate. assert (H' : - ln (Rsum (map (fun g => mvn_pdf g x) gs)) = w) by congruence. rewrite <- H'. clear H H'. clearbody gs. pose proof (mm_sum_pos gs x NE) as P. split.
  - apply Ropp_le_contravar. apply ln_mono; auto. apply Rsum_map_le. intros g _. destruct (pdf_peak g x) as [A B]. lra.
  - intros g Hg. apply Ropp_le_contravar. apply ln_mono; [apply pdf_pos|]. clear - Hg. induction gs as [|h l IH]; [destruct Hg|]. cbn [map]. rewrite Rsum_cons. pose proof (pdf_pos h x).
    assert (0 <= Rsum (map (fun g => mvn_pdf g x) l)) by (apply Rsum_map_nonneg; intros; apply Rlt_le, pdf_pos). destruct Hg as [->|Hg]; [lra|]. specialize (IH Hg). lra.
Qed.
(** one component: the mean is the only minimiser *)
Theorem mm_single : forall eigh m C g x, eigh_ok eigh (length m) C -> mvn_freeze eigh m C = Ok g -> length x = length m -> x <> m ->
  exists a b, mm_apply [g] m = Fin a /\ mm_apply [g] x = Fin b /\ a < b.
Proof.
  intros eigh m C g x EO HF LX NX. rewrite !mm_value. cbn [map]. rewrite !Rsum_cons. eexists. eexists. split; [reflexivity|]. split; [reflexivity|].
  cbn [Rsum fold_right]. rewrite !Rplus_0_r. apply Ropp_lt_contravar. apply ln_increasing; [apply pdf_pos|].
  destruct (freeze_inv _ _ _ _ HF) as (_ & PS & EG). pose proof EO as (_ & O2 & _). pose proof (proj2 (pdf_peak g x)) as PK. subst g. cbn [mv_mean] in PK. rewrite PK. unfold mvn_pdf, peak. cbn [mv_mean mv_logdet mv_U].
  set (d := length m) in *. set (s := fst (eigh d C)) in *. set (V := snd (eigh d C)) in *. apply exp_increasing.
  set (q := msum d (fun j => _ ^ 2)). assert (Q : 0 < q); [|lra].
  assert (ND : exists i, (i < d)%nat /\ nth i x 0 - nth i m 0 <> 0).
  { destruct (Classical_Prop.classic (exists i, (i < d)%nat /\ nth i x 0 - nth i m 0 <> 0)) as [|NE]; auto. exfalso. apply NX. apply nth_ext with (d := 0) (d' := 0); auto. intros i Hi.
    destruct (Req_dec (nth i x 0 - nth i m 0) 0); [lra|]. exfalso. apply NE. exists i. split; auto. unfold d. lia. }
  destruct ND as (i & Hi & Hn). set (v := fun i => nth i x 0 - nth i m 0) in *.
  destruct (Classical_Prop.classic (exists k, (k < d)%nat /\ msum d (fun i => v i * V i k) <> 0)) as [(k & Hk & NZ)|AZ].
  - apply (msum_pos_one d _ k); auto; [intros; apply pow2_ge_0|]. rewrite (msum_ext d _ (fun i => v i * V i k * sqrt (1 / s k))) by (intros; unfold v; ring). rewrite msum_scal_r.
    assert (S0 : 0 < sqrt (1 / s k)) by (apply sqrt_lt_R0, Rdiv_lt_0_compat; [lra|apply PS; auto]).
    assert (NZ' : msum d (fun i => v i * V i k) * sqrt (1 / s k) <> 0) by (apply Rmult_integral_contrapositive_currified; auto; lra). pose proof (Rlt_0_sqr _ NZ') as X. unfold Rsqr in X. cbn [pow]. lra.
  - exfalso. apply Hn. change (v i = 0).
    assert (E : msum d (fun k => V i k * msum d (fun j => v j * V j k)) = v i).
    { rewrite (msum_ext d _ (fun k => msum d (fun j => v j * (V i k * V j k)))) by (intros; rewrite <- msum_scal; apply msum_ext; intros; ring).
      rewrite msum_swap. rewrite (msum_ext d _ (fun j => if Nat.eqb i j then v j else 0)); [apply (msum_delta d i v); auto|].
      intros j Hj. rewrite msum_scal. pose proof (O2 i j Hi Hj) as X. unfold mmul, mtr, mid in X. rewrite X. destruct (i =? j)%nat; ring. }
    rewrite <- E. apply msum_zero. intros k Hk. destruct (Req_dec (msum d (fun j => v j * V j k)) 0) as [->|ne]; [ring|]. exfalso. apply AZ. eauto.
Qed.

(** two dimensions: the product of the eigenvalues is the determinant *)
Lemma det2 : forall eigh C D, eigh_ok eigh 2 C -> det_is eigh 2 C D -> D = C 0%nat 0%nat * C 1%nat 1%nat - C 0%nat 1%nat * C 1%nat 0%nat.
Proof.
  intros eigh C D HE HD. pose proof (eigen_vdv _ _ _ _ HE) as EC. destruct HE as (O1 & O2 & _). red in HD. subst D.
  set (s := fst (eigh 2%nat C)) in *. set (V := snd (eigh 2%nat C)) in *.
  rewrite (EC 0%nat 0%nat), (EC 0%nat 1%nat), (EC 1%nat 0%nat), (EC 1%nat 1%nat) by lia. unfold vdv. rewrite !msum_S, !msum_0. cbn [prodn].
  pose proof (O1 0%nat 0%nat ltac:(lia) ltac:(lia)) as A. pose proof (O1 0%nat 1%nat ltac:(lia) ltac:(lia)) as B. pose proof (O1 1%nat 1%nat ltac:(lia) ltac:(lia)) as E.
  unfold mmul, mtr, mid in A, B, E. rewrite !msum_S, !msum_0 in A, B, E. cbn [Nat.eqb] in A, B, E.
  set (a := V 0%nat 0%nat) in *. set (b := V 0%nat 1%nat) in *. set (c := V 1%nat 0%nat) in *. set (e := V 1%nat 1%nat) in *.
  assert (X : (a * e - b * c) * (a * e - b * c) = 1). { replace ((a * e - b * c) * (a * e - b * c)) with ((a * a + c * c) * (b * b + e * e) - (a * b + c * e) * (a * b + c * e)) by ring.
    replace (a * a + c * c) with 1 by lra. replace (b * b + e * e) with 1 by lra. replace (a * b + c * e) with 0 by lra. ring. }
  transitivity (s 0%nat * s 1%nat * ((a * e - b * c) * (a * e - b * c))); [rewrite X|]; ring.
Qed.

(** arrays *)
Lemma mm_check : forall gs (x : nd R) M N d nfe, shape x = [M; N; d] ->
  check_f_dims (apply_kind K3D (mm_call gs)) M N true x nfe = match gs with [] => Err ValueError | _ => if (M =? 1)%nat || (N =? 1)%nat then Err ValueError else Ok (map (fun n => n + N)%nat nfe) end.
Proof. intros [|g gs] x M N d nfe H; [reflexivity|]. apply (squeezed_check_3D (mm_apply (g :: gs)) x M N d nfe H). Qed.

Lemma centre_two : forall l def, (2 <= length l)%nat -> centre (CList l) def = Ok l /\ centre (CArray l) def = Err ValueError.
Proof. intros [|a [|b l]] def H; cbn in H; try lia. split; reflexivity. Qed.
Lemma bimodal_modes : forall a0 a1 b0 b1, exists u v, Bimodal a0 a1 b0 b1 [a0; a1] = Ok u /\ Bimodal a0 a1 b0 b1 [b0; b1] = Ok v /\ - ln (3 / 2) <= u < 0 /\ v < ln 2.
Proof.
  intros. destruct (Bimodal a0 a1 b0 b1 [a0; a1]) as [u|] eqn:E1; [|discriminate]. destruct (Bimodal a0 a1 b0 b1 [b0; b1]) as [v|] eqn:E2; [|discriminate]. exists u, v. split; auto. split; auto.
  pose proof (bimodal_bound _ _ _ _ _ _ E1) as L. unfold Bimodal in E1, E2. cbn [at_ nth_error bind] in E1, E2.
  assert (U : - ln (exp (- ((a0 - a0) ^ 2 + (a1 - a1) ^ 2 / (2 / 10))) + 1 / 2 * exp (- (a0 - b0) ^ 2 / 8 - (a1 - b1) ^ 2 / (1 / 2))) = u) by congruence.
  assert (W : - ln (exp (- ((b0 - a0) ^ 2 + (b1 - a1) ^ 2 / (2 / 10))) + 1 / 2 * exp (- (b0 - b0) ^ 2 / 8 - (b1 - b1) ^ 2 / (1 / 2))) = v) by congruence. clear E1 E2. split; [split; [exact L|]|].
  - rewrite <- U, <- Ropp_0. apply Ropp_lt_contravar. rewrite <- ln_1. apply ln_increasing; [lra|]. replace (- ((a0 - a0) ^ 2 + (a1 - a1) ^ 2 / (2 / 10))) with 0 by field. rewrite exp_0.
    pose proof (exp_pos (- (a0 - b0) ^ 2 / 8 - (a1 - b1) ^ 2 / (1 / 2))). lra.
  - rewrite <- W. replace (ln 2) with (- ln (/ 2)) by (rewrite ln_Rinv by lra; ring). apply Ropp_lt_contravar. apply ln_increasing; [lra|]. replace (- (b0 - b0) ^ 2 / 8 - (b1 - b1) ^ 2 / (1 / 2)) with 0 by field. rewrite exp_0.
    pose proof (exp_pos (- ((b0 - a0) ^ 2 + (b1 - a1) ^ 2 / (2 / 10)))). lra.
Qed.

(** ** the default objective *)
Theorem mm_defaults : forall eigh, eigh_ok eigh 2 mid -> exists gs, mm_new eigh None None = Ok gs /\ forall a b, mm_apply gs [a; b] = Fin ((a ^ 2 + b ^ 2) / 2 + ln (2 * PI)).
Proof.
  intros eigh H. change (mm_new eigh None None) with (mm_init eigh [[0; 0]] [mid]).
  assert (P : exists gs, mm_init eigh [[0; 0]] [mid] = Ok gs).
  { apply mm_accepts; intros m C [E|[]]; injection E as <- <-; [exact H|]. intros v (i & Hi & Hv). unfold mquad, msum, mid. cbn [length seq map]. cbn -[Rsum].
    assert (0 < v 0%nat ^ 2 + v 1%nat ^ 2).
    { destruct i as [|[|i]]; [| |cbn in Hi; lia]; pose proof (pow2_ge_0 (v 0%nat)); pose proof (pow2_ge_0 (v 1%nat)); assert (0 < v _ ^ 2) by (exact (Rsqr_pos_lt _ Hv) || (rewrite <- Rsqr_pow2; exact (Rsqr_pos_lt _ Hv))); lra. }
    cbn. nra. }
  destruct P as (gs & E). exists gs. split; [exact E|]. intros a b.
  rewrite (mm_mixture eigh [[0; 0]] [mid] gs [mid] [1] [a; b]); try reflexivity; try discriminate; [|exact E|].
  - f_equal. cbn [combine map fst snd Rsum fold_right]. unfold density, mquad, msum, mid. cbn [length seq map nth]. cbn [Nat.eqb].
    pose proof PI_RGT_0.
    replace ((2 * PI) ^ 2 * 1) with (Rsqr (2 * PI)) by (unfold Rsqr; ring). rewrite sqrt_Rsqr by lra.
    match goal with |- - ln ?z = _ => replace z with (exp (- (a ^ 2 + b ^ 2) / 2) / (2 * PI)) end.
    + unfold Rdiv at 1. rewrite ln_mult, ln_exp, ln_Rinv; [lra|lra|apply exp_pos|apply Rinv_0_lt_compat; lra].
    + cbn. match goal with |- exp ?u / _ = exp ?v / _ + 0 => replace v with u by (field || lra) end. lra.
  - intros i m C P D H1 H2 H3 H4. destruct i as [|i]; [|destruct i; discriminate].
    injection H1 as <-. injection H2 as <-. injection H3 as <-. injection H4 as <-. split; [exact H|]. split.
    + intros i j Hi Hj. cbn [length] in *. destruct i as [|[|i]], j as [|[|j]]; try lia; unfold mmul, msum, mid; cbn; ring.
    + assert (G : prodn 2%nat (fst (eigh 2%nat mid)) = 1) by (rewrite (det2 eigh mid (prodn 2%nat (fst (eigh 2%nat mid))) H eq_refl); unfold mid; cbn; ring).
      symmetry. exact G.
Qed.
