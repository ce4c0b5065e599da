(** * Mean and covariance of one step with covariance noise *)
From Coq Require Import List Arith Bool Reals Lia Lra.
From Verif Require Import Scalar Np NpFacts PolarFacts RVec RVecFacts Consensus ConsSpec ConsFacts Cbo CboSpec CboFacts Nd MatSqrt MatSpec MatFacts CovNoise CovFacts CovCbo CovCboSpec CovCboFacts MomentSpec MomentFacts.
Import ListNotations.
Open Scope R_scope.

Lemma Rsum_div : forall l S, Rsum l / S = Rsum (map (fun a => a / S) l).
Proof. intros. induction l as [|a l IH]; cbn; [unfold Rdiv; ring|]. fold (Rsum l) (Rsum (map (fun a => a / S) l)). rewrite <- IH. unfold Rdiv; ring. Qed.
Lemma sum_combine : forall (g : fl R -> list R -> R) (E : list (fl R)) X N, length E = N -> length X = N ->
  Rsum (map (fun q => g (fst q) (snd q)) (combine E X)) = msum N (fun j => g (nth j E NaN) (nth j X [])).
Proof.
  intros g E. unfold msum. induction E as [|e E IH]; intros [|p X] N <- HX; try discriminate HX; auto.
  cbn [combine map length seq Rsum fold_right fst snd nth]. fold (Rsum (map (fun q => g (fst q) (snd q)) (combine E X))). injection HX as HX. rewrite (IH X (length E) eq_refl HX).
  rewrite <- seq_shift, map_map. reflexivity.
Qed.

Lemma mat_root_sum : forall d A B V, eigen d A B V -> mpsd d A -> forall i j, (i < d)%nat -> (j < d)%nat ->
  msum d (fun q => mat_sqrt d B V i q * mat_sqrt d B V j q) = A i j.
Proof.
  intros d A B V HE HA i j Hi Hj. rewrite <- (mat_sqrt_root d A B V HE HA i j Hi Hj). unfold mmul at 1. apply msum_ext. intros q Hq.
  f_equal. destruct (mat_sqrt_psd d A B V HE) as [HS _]. apply HS; auto.
Qed.

Section One.
  Context {Om : Type} (A : average Om).
  Variables (f : vec -> fl R) (eigh : nat -> mat -> (nat -> R) * mat) (smp : bool) (M N d m n : nat) (X : list (list R)) (x : nd (fl R)) (alpha : nd (fl R)) (a la dt sg v : R).
  Hypothesis HX : ensemble N d X.
  Hypothesis Hf : finite_obj d f.
  Hypothesis Hx : shape x = [M; N; d].
  Hypothesis Hm : (m < M)%nat.
  Hypothesis Hn : (n < N)%nat.
  Hypothesis Hxm : forall j i, (j < N)%nat -> (i < d)%nat -> get x [m; j; i] = Fin (coord i (nth j X [])).
  Hypothesis Sa : shape alpha = [M; 1%nat].
  Hypothesis Ha : get alpha [m; 0%nat] = Fin a.
  Hypothesis Pa : - 1 < a.
  Hypothesis Hdt : 0 <= dt.
  Hypothesis Heigh : forall C, msym d C -> eigen d C (fst (eigh d C)) (snd (eigh d C)).
  Let E := map f (map floats X).

  Lemma nthX : forall j, (j < N)%nat -> length (nth j X []) = d.
  Proof. intros j Hj. apply HX. apply nth_In. rewrite (proj1 HX). auto. Qed.
  Lemma energy_at : forall j, (j < N)%nat -> get (energies f x) [m; j] = nth j E NaN.
  Proof.
    intros j Hj. unfold energies. cbn [get app]. rewrite Hx. cbn [last].
    rewrite (map_ext_in _ (fun i => Fin (coord i (nth j X [])))) by (intros i Hi; apply in_seq in Hi; apply Hxm; lia).
    rewrite <- (nthX j Hj) at 1. rewrite map_coord. unfold E. rewrite map_map. rewrite (nth_indep _ NaN (f (floats []))) by (rewrite map_length, (proj1 HX); auto).
    rewrite (map_nth (fun p => f (floats p))). auto.
  Qed.
  Lemma adm : admissible a E.
  Proof. eapply (finite_admissible f); eauto. rewrite (proj1 HX). lia. apply HX. Qed.
  Let S := Rsum (map (gibbs a) E).
  Let ws := map (fun e => gibbs a e / S) E.
  Lemma weights : run_w alpha (energies f x) m N = map Fin ws.
  Proof.
    unfold run_w, ws, S. rewrite <- (coeffs_char a E adm). unfold coeffs. f_equal. rewrite Ha.
    apply (nth_ext _ _ NaN NaN). rewrite !map_length, seq_length. unfold E. rewrite !map_length. symmetry. apply HX.
    intros j Hj. rewrite map_length, seq_length in Hj. rewrite nth_map_seq by auto.
    rewrite (nth_map _ _ (fun ei => fmul (fopp (Fin a)) ei) E j NaN NaN). rewrite energy_at by auto. auto. unfold E. rewrite !map_length, (proj1 HX). auto.
  Qed.
  Lemma weight_at : forall j, (j < N)%nat -> nth j (run_w alpha (energies f x) m N) NaN = Fin (gibbs a (nth j E NaN) / S).
  Proof.
    intros j Hj. rewrite weights. unfold ws. rewrite map_map. rewrite (nth_map _ _ (fun e => Fin (gibbs a e / S)) E j NaN NaN). auto. unfold E. rewrite !map_length, (proj1 HX). auto.
  Qed.
  Lemma lenE : length E = N. Proof. unfold E. rewrite !map_length. apply HX. Qed.
  Lemma mean_as_sum : forall i, gibbs_mean a E X i = msum N (fun j => coord i (nth j X []) * (gibbs a (nth j E NaN) / S)).
  Proof.
    intros i. unfold gibbs_mean. rewrite (sum_combine (fun e p => gibbs a e * coord i p) E X N lenE (proj1 HX)). unfold msum. rewrite Rsum_div, map_map. f_equal. apply map_ext. intros. fold S. unfold Rdiv. ring.
  Qed.
  Lemma cov_as_sum : forall i k, gibbs_cov a E X i k = msum N (fun j => (coord i (nth j X []) - gibbs_mean a E X i) * (coord k (nth j X []) - gibbs_mean a E X k) * (gibbs a (nth j E NaN) / S)).
  Proof.
    intros i k. unfold gibbs_cov. rewrite (sum_combine (fun e p => gibbs a e * ((coord i p - gibbs_mean a E X i) * (coord k p - gibbs_mean a E X k))) E X N lenE (proj1 HX)). unfold msum. rewrite Rsum_div, map_map. f_equal. apply map_ext. intros. fold S. unfold Rdiv. ring.
  Qed.
  Lemma S_pos : 0 < S. Proof. apply gsum_pos. exact adm. Qed.
  Lemma cov_is_psd : mpsd d (gibbs_cov a E X).
  Proof.
    split. intros i k _ _. rewrite !cov_as_sum. apply msum_ext. intros. ring.
    intros u. unfold mquad. set (dr := fun j i => coord i (nth j X []) - gibbs_mean a E X i). set (w := fun j => gibbs a (nth j E NaN) / S).
    rewrite (msum_ext d _ (fun i => msum N (fun j => w j * (u i * dr j i) * msum d (fun k => u k * dr j k)))).
    2:{ intros i Hi. rewrite (msum_ext d _ (fun k => msum N (fun j => w j * (u i * dr j i) * (u k * dr j k)))).
        - rewrite msum_swap. apply msum_ext. intros. rewrite msum_scal. auto.
        - intros k Hk. rewrite cov_as_sum, <- msum_scal, <- msum_scal_r. apply msum_ext. intros. unfold dr, w. ring. }
    rewrite msum_swap. apply msum_nonneg. intros j Hj. rewrite msum_scal_r, msum_scal, Rmult_assoc. apply Rmult_le_pos; [|apply Rle_0_sqr].
    unfold w. apply Rmult_le_pos. apply gibbs_nonneg. left. apply Rinv_0_lt_compat. apply S_pos.
  Qed.

  Definition gain : R := 2 * dt * (if smp then 1 + a else 1).
  Lemma gain_nonneg : 0 <= gain.
  Proof. unfold gain. destruct smp; apply Rmult_le_pos; lra. Qed.
  Lemma run_fac_value : run_fac smp (Fin dt) alpha m = Fin (sqrt gain).
  Proof.
    unfold run_fac, gain. rewrite Ha. destruct smp; cbn [fadd fmul]; unfold fdiv.
    - change (kadd 1 a) with (1 + a). change (kmul 2 dt) with (2 * dt). rewrite is0_false by lra. change (kdiv 1 (1 + a)) with (1 / (1 + a)).
      rewrite is0_false. 2:{ apply Rgt_not_eq. unfold Rdiv. rewrite Rmult_1_l. apply Rinv_0_lt_compat. lra. }
      change (kdiv (2 * dt) (1 / (1 + a))) with (2 * dt / (1 / (1 + a))). replace (2 * dt / (1 / (1 + a))) with (2 * dt * (1 + a)) by (field; lra). apply fsqrt_fin. apply Rmult_le_pos; lra.
    - change (kmul 2 dt) with (2 * dt). rewrite is0_false by lra. change (kdiv (2 * dt) 1) with (2 * dt / 1). replace (2 * dt / 1) with (2 * dt * 1) by field. apply fsqrt_fin. lra.
  Qed.

  (** one step: mean and covariance of the new position of particle n *)
  Theorem cov_moments : forall (z : Om -> list nat -> fl R) (xi : Om -> list R), (forall w q, (q < d)%nat -> z w [m; n; q] = Fin (coord q (xi w))) -> white A d v xi ->
    exists (y : Om -> nd (fl R)) (Y : Om -> list R), (forall w, cov_cbo_step f (compute_mat_sqrt eigh) smp (Fin la) (Fin dt) (Fin sg) alpha (fun u => u) x (z w) = Ok (y w) /\ shape (y w) = [M; N; d] /\ length (Y w) = d) /\
      (forall w i, (i < d)%nat -> get (y w) [m; n; i] = Fin (coord i (Y w))) /\
      let mu := fun i => coord i (nth n X []) - la * dt * (coord i (nth n X []) - gibbs_mean a E X i) in
      (forall i, (i < d)%nat -> mean_is A (fun w => coord i (Y w)) (mu i)) /\
      (forall i k, (i < d)%nat -> (k < d)%nat -> mean_is A (fun w => (coord i (Y w) - mu i) * (coord k (Y w) - mu k)) (sg ^ 2 * v * gain * gibbs_cov a E X i k)).
  Proof.
    intros z xi Hz (HL & H1 & H2).
    assert (Se : shape (energies f x) = [M; N]) by (unfold energies; cbn [shape]; rewrite Hx; reflexivity).
    destruct (consensus_value alpha (energies f x) x M N d Sa Se Hx) as (c & Ec & Sc & Hc).
    destruct (drift_value x c M N d Hx Sc) as (dr & Ed & Sd & Hd).
    assert (Cc : forall i, (i < d)%nat -> get c [m; 0%nat; i] = Fin (gibbs_mean a E X i)).
    { intros i Hi. rewrite Hc by auto. rewrite (fsum_msum N _ (fun j => coord i (nth j X []) * (gibbs a (nth j E NaN) / S))). rewrite mean_as_sum. auto.
      intros j Hj. rewrite Hxm, weight_at by auto. reflexivity. }
    assert (Dd : forall j i, (j < N)%nat -> (i < d)%nat -> get dr [m; j; i] = Fin (coord i (nth j X []) - gibbs_mean a E X i)).
    { intros j i Hj Hi. rewrite Hd, Hxm, Cc by auto. reflexivity. }
    destruct (cov_value alpha (energies f x) dr M N d Sa Se Sd) as (D & ED & _ & HD).
    assert (DC : forall i k, (i < d)%nat -> (k < d)%nat -> get D [m; i; k] = Fin (gibbs_cov a E X i k)).
    { intros i k Hi Hk. rewrite HD by auto. rewrite cov_as_sum. apply fsum_msum. intros j Hj. rewrite !Dd, weight_at by auto. reflexivity. }
    set (RE := real_entries (fun i k => get D [m; i; k])).
    assert (HRE : meq d (gibbs_cov a E X) RE) by (intros i k Hi Hk; unfold RE, real_entries; rewrite DC; auto).
    assert (HP : mpsd d RE) by (apply (mpsd_ext d _ _ HRE cov_is_psd)).
    pose proof (Heigh RE (proj1 HP)) as HEig.
    set (Q := mat_sqrt d (fst (eigh d RE)) (snd (eigh d RE))).
    assert (HQ : forall i k, (i < d)%nat -> (k < d)%nat -> msum d (fun q => Q i q * Q k q) = gibbs_cov a E X i k).
    { intros i k Hi Hk. unfold Q. rewrite (mat_root_sum d RE); auto. symmetry. apply HRE; auto. }
    assert (MS : forall i q, compute_mat_sqrt eigh d (fun i k => get D [m; i; k]) i q = Fin (Q i q)).
    { intros i q. unfold compute_mat_sqrt. replace (finite_entries d (fun i0 k => get D [m; i0; k])) with true.
      2:{ symmetry. apply finite_entries_spec. intros i' k' Hi' Hk'. change (get D [m; i'; k'] = Fin (RE i' k')). rewrite DC by auto. f_equal. apply HRE; auto. }
      fold RE. unfold Q. destruct (eigh d RE). reflexivity. }
    set (mu := fun i => coord i (nth n X []) - la * dt * (coord i (nth n X []) - gibbs_mean a E X i)).
    set (Yc := fun w i => mu i + sg * sqrt gain * msum d (fun q => Q i q * coord q (xi w))).
    assert (HS : forall w, exists y, cov_cbo_step f (compute_mat_sqrt eigh) smp (Fin la) (Fin dt) (Fin sg) alpha (fun u => u) x (z w) = Ok (lift1 (fun u => u) y) /\ shape y = [M; N; d] /\
      forall i, (i < d)%nat -> get y [m; n; i] = Fin (Yc w i)).
    { intros w. unfold cov_cbo_step. rewrite Ec. cbn [bind]. rewrite Ed. cbn [bind].
      destruct (cov_step_value (compute_mat_sqrt eigh) smp (Fin la) (Fin dt) (Fin sg) alpha (energies f x) x dr (z w) M N d Sa Se Sd Hx) as (D2 & y & ED2 & -> & Sy & Hy).
      rewrite ED in ED2. injection ED2 as <-. cbn [bind]. exists y. split; [reflexivity|]. split; [exact Sy|]. intros i Hi. rewrite Hy by auto. rewrite Hxm, Dd, run_fac_value by auto.
      rewrite (fsum_msum d _ (fun q => Q i q * coord q (xi w))). 2:{ intros q Hq. rewrite MS, Hz by auto. reflexivity. }
      cbn [fmul fadd fopp]. f_equal. unfold Yc, mu.
      change (coord i (nth n X []) + (- la * dt * (coord i (nth n X []) - gibbs_mean a E X i) + sg * (sqrt gain * msum d (fun q => Q i q * coord q (xi w)))) =
        coord i (nth n X []) - la * dt * (coord i (nth n X []) - gibbs_mean a E X i) + sg * sqrt gain * msum d (fun q => Q i q * coord q (xi w))). ring. }
    exists (fun w => match cov_cbo_step f (compute_mat_sqrt eigh) smp (Fin la) (Fin dt) (Fin sg) alpha (fun u => u) x (z w) with Ok y => y | Err _ => x end), (fun w => map (Yc w) (seq 0 d)).
    assert (HY : forall w i, (i < d)%nat -> coord i (map (Yc w) (seq 0 d)) = Yc w i) by (intros; unfold coord; apply nth_map_seq; auto).
    split; [|split; [|split]].
    - intros w. destruct (HS w) as (y & -> & Sy & _). rewrite map_length, seq_length. auto.
    - intros w i Hi. destruct (HS w) as (y & -> & _ & Hy). cbn [lift1 get]. rewrite Hy, HY by auto. auto.
    - intros i Hi. eapply mean_eq. apply (mean_affine A (mu i) (sg * sqrt gain)). apply (mean_sum A (fun q w => Q i q * coord q (xi w)) (fun q => Q i q * 0) (seq 0 d)).
      intros q Hq. apply in_seq in Hq. apply (avg_scal _ A). apply H1. lia. intros w. rewrite HY by auto. reflexivity.
      cbn beta. replace (Rsum (map (fun q => Q i q * 0) (seq 0 d))) with 0; [ring|]. symmetry. apply msum_zero. intros; ring.
    - intros i k Hi Hk. fold mu. eapply mean_eq. apply (avg_scal _ A (sg ^ 2 * gain)). apply (mean_sum A (fun q w => Rsum (map (fun r => Q i q * Q k r * (coord q (xi w) * coord r (xi w))) (seq 0 d)))
        (fun q => Rsum (map (fun r => Q i q * Q k r * (if (q =? r)%nat then v else 0)) (seq 0 d))) (seq 0 d)).
      { intros q Hq. apply in_seq in Hq. apply (mean_sum A (fun r w => Q i q * Q k r * (coord q (xi w) * coord r (xi w)))). intros r Hr. apply in_seq in Hr. apply (avg_scal _ A). apply H2; lia. }
      + intros w. rewrite !HY by auto. unfold Yc. replace ((mu i + sg * sqrt gain * msum d (fun q => Q i q * coord q (xi w)) - mu i) * (mu k + sg * sqrt gain * msum d (fun q => Q k q * coord q (xi w)) - mu k))
          with (sg ^ 2 * (sqrt gain * sqrt gain) * (msum d (fun q => Q i q * coord q (xi w)) * msum d (fun q => Q k q * coord q (xi w)))) by ring.
        rewrite (sqrt_def gain gain_nonneg). f_equal. change (msum d (fun q => msum d (fun r => Q i q * Q k r * (coord q (xi w) * coord r (xi w)))) = msum d (fun q => Q i q * coord q (xi w)) * msum d (fun q => Q k q * coord q (xi w))).
        rewrite <- msum_scal_r. apply msum_ext. intros q Hq. rewrite <- msum_scal. apply msum_ext. intros r Hr. ring.
      + rewrite <- (HQ i k Hi Hk). transitivity (sg ^ 2 * gain * msum d (fun q => v * (Q i q * Q k q))).
        f_equal. apply (f_equal Rsum). apply map_ext_in. intros q Hq. apply in_seq in Hq.
        transitivity (msum d (fun r => if (q =? r)%nat then Q i q * Q k r * v else 0)). apply (f_equal Rsum). apply map_ext. intros r. destruct (q =? r)%nat; ring. rewrite msum_delta by lia. ring.
        rewrite msum_scal. ring.
  Qed.
End One.
