(** * Runs with covariance noise: one step in closed form, the affine hull, moved runs *)
From Coq Require Import String List Arith Bool Reals Lia Lra.
From Verif Require Import Scalar Np NpFacts PolarFacts RVec RVecFacts Consensus ConsSpec ConsFacts Cbo CboSpec CboFacts Nd MatSqrt MatSpec MatFacts CovNoise CovFacts CovCbo CovCboSpec CovCboFacts MomentSpec MomentFacts CovMoment PostProc Cbs CbsFacts CbsRunSpec CbsRun.
Import ListNotations.
Open Scope R_scope.

Definition rz (e : fl R) : R := match e with Fin v => v | _ => 0 end.

Theorem step_form : forall f eigh smp M N d m X x i a, finite_obj d f -> eigh_ok d eigh -> shape x = [M; N; d] -> (m < M)%nat -> (1 <= N)%nat ->
  run_is x m N d X -> valid_inputs M i -> get (i_alpha i) [m; 0%nat] = Fin a ->
  let E := map f (map floats X) in
  exists y Q, (forall pp, one_step f eigh smp pp i x = Ok (lift1 pp y)) /\ shape y = [M; N; d] /\ mpsd d Q /\ meq d (mmul d Q Q) (gibbs_cov a E X) /\
    forall n k, (n < N)%nat -> (k < d)%nat -> get y [m; n; k] =
      Fin (coord k (nth n X []) - i_la i * i_dt i * (coord k (nth n X []) - gibbs_mean a E X k) +
           i_sg i * sqrt (gain smp a (i_dt i)) * msum d (fun q => Q k q * rz (i_z i [m; n; q]))).
Proof.
  intros f eigh smp M N d m X x i a Hf He Hx Hm HN [HX Hxm] (Hdt & Sa & Ha' & Hz) Ha E.
  assert (Pa : - 1 < a). { destruct (Ha' m Hm) as (a' & E' & P'). rewrite Ha in E'. injection E' as <-. exact P'. }
  pose proof (weight_at f M N d m 0 X x (i_alpha i) a HX Hf Hx Hm HN Hxm Ha) as WA. fold E in WA.
  assert (Se : shape (energies f x) = [M; N]) by (unfold energies; cbn [shape]; rewrite Hx; reflexivity).
  destruct (consensus_value (i_alpha i) (energies f x) x M N d Sa Se Hx) as (c & Ec & Sc & Hc).
  destruct (drift_value x c M N d Hx Sc) as (dr & Ed & Sd & Hd).
  assert (Cc : forall k, (k < d)%nat -> get c [m; 0%nat; k] = Fin (gibbs_mean a E X k)).
  { intros k Hk. rewrite Hc by auto. rewrite (fsum_msum N _ (fun j => coord k (nth j X []) * (gibbs a (nth j E NaN) / Rsum (map (gibbs a) E)))).
    unfold E. rewrite (mean_as_sum f N d X a HX). auto. intros j Hj. rewrite Hxm, WA by auto. reflexivity. }
  assert (Dd : forall j k, (j < N)%nat -> (k < d)%nat -> get dr [m; j; k] = Fin (coord k (nth j X []) - gibbs_mean a E X k)).
  { intros j k Hj Hk. rewrite Hd, Hxm, Cc by auto. reflexivity. }
  destruct (cov_value (i_alpha i) (energies f x) dr M N d Sa Se Sd) as (D & ED & _ & HD).
  assert (DC : forall k l, (k < d)%nat -> (l < d)%nat -> get D [m; k; l] = Fin (gibbs_cov a E X k l)).
  { intros k l Hk Hl. rewrite HD by auto. unfold E at 1. rewrite (cov_as_sum f N d X a HX). apply fsum_msum. intros j Hj. rewrite !Dd, WA by auto. reflexivity. }
  set (RE := real_entries (fun k l => get D [m; k; l])).
  assert (HRE : meq d (gibbs_cov a E X) RE) by (intros k l Hk Hl; unfold RE, real_entries; rewrite DC; auto).
  assert (HP : mpsd d RE). { apply (mpsd_ext d _ _ HRE). apply (cov_is_psd f M N d m 0 X a HX Hf Hm HN). }
  pose proof (He RE (proj1 HP)) as HEig.
  set (Q := mat_sqrt d (fst (eigh d RE)) (snd (eigh d RE))).
  assert (MS : forall k q, compute_mat_sqrt eigh d (fun k l => get D [m; k; l]) k q = Fin (Q k q)).
  { intros k q. unfold compute_mat_sqrt. replace (finite_entries d (fun i0 k => get D [m; i0; k])) with true.
    2:{ symmetry. apply finite_entries_spec. intros i' k' Hi' Hk'. change (get D [m; i'; k'] = Fin (RE i' k')). rewrite DC by auto. f_equal. apply HRE; auto. }
    fold RE. unfold Q. destruct (eigh d RE). reflexivity. }
  destruct (cov_step_value (compute_mat_sqrt eigh) smp (Fin (i_la i)) (Fin (i_dt i)) (Fin (i_sg i)) (i_alpha i) (energies f x) x dr (i_z i) M N d Sa Se Sd Hx) as (D2 & y & ED2 & Ey & Sy & Hy).
  rewrite ED in ED2. injection ED2 as <-. exists y, Q. split; [|split; [exact Sy|split; [|split]]].
  - intros pp. unfold one_step, cov_cbo_step. rewrite Ec. cbn [bind]. rewrite Ed. cbn [bind]. rewrite Ey. reflexivity.
  - apply (mat_sqrt_psd d RE). exact HEig.
  - intros k l Hk Hl. unfold Q. rewrite (mat_sqrt_root d RE _ _ HEig HP k l Hk Hl). symmetry. apply HRE; auto.
  - intros n k Hn Hk. rewrite Hy by auto. rewrite Hxm, Dd, (run_fac_value smp m (i_alpha i) a (i_dt i) Ha Pa Hdt) by auto.
    rewrite (fsum_msum d _ (fun q => Q k q * rz (i_z i [m; n; q]))). 2:{ intros q Hq. rewrite MS. destruct (Hz [m; n; q]) as (v & ->). reflexivity. }
    cbn [fmul fadd fopp]. f_equal. set (G := sqrt (gain smp a (i_dt i))). set (W := msum d (fun q => Q k q * rz (i_z i [m; n; q]))).
    change (coord k (nth n X []) + (- i_la i * i_dt i * (coord k (nth n X []) - gibbs_mean a E X k) + i_sg i * (G * W)) =
      coord k (nth n X []) - i_la i * i_dt i * (coord k (nth n X []) - gibbs_mean a E X k) + i_sg i * G * W). ring.
Qed.

Lemma run_is_intro : forall y m N d (g : nat -> nat -> R), (forall n k, (n < N)%nat -> (k < d)%nat -> get y [m; n; k] = Fin (g n k)) ->
  run_is y m N d (map (fun n => map (g n) (seq 0 d)) (seq 0 N)).
Proof.
  intros y m N d g H. split. split. rewrite map_length, seq_length; auto. intros p Hp. apply in_map_iff in Hp. destruct Hp as (n & <- & _). rewrite map_length, seq_length; auto.
  intros n k Hn Hk. rewrite H by auto. f_equal. rewrite nth_map_seq by auto. unfold coord. rewrite nth_map_seq by auto. auto.
Qed.
Lemma run_is_nth : forall x m N d X Y, run_is x m N d X -> ensemble N d Y -> (forall n k, (n < N)%nat -> (k < d)%nat -> coord k (nth n X []) = coord k (nth n Y [])) -> X = Y.
Proof.
  intros x m N d X Y [[LX HX] _] [LY HY] H. apply (nth_ext _ _ [] []). rewrite LX; auto. intros n Hn. rewrite LX in Hn.
  assert (A1 : length (nth n X []) = d) by (apply HX, nth_In; lia). assert (A2 : length (nth n Y []) = d) by (apply HY, nth_In; lia).
  apply (nth_ext _ _ 0 0). rewrite A1; auto. intros k Hk. rewrite A1 in Hk. apply (H n k Hn Hk).
Qed.
Lemma run_is_unique : forall x m N d X Y, run_is x m N d X -> run_is x m N d Y -> X = Y.
Proof. intros x m N d X Y HX HY. eapply run_is_nth; eauto. apply HY. intros n k Hn Hk. destruct HX as [_ A], HY as [_ B]. specialize (A n k Hn Hk). rewrite (B n k Hn Hk) in A. injection A; auto. Qed.

(** ** The affine hull *)
Section Hull.
  Variables (f : vec -> fl R) (eigh : nat -> mat -> (nat -> R) * mat) (smp : bool) (pp : fl R -> fl R) (T : R) (M N d m : nat).
  Hypothesis Hf : finite_obj d f.
  Hypothesis He : eigh_ok d eigh.
  Hypothesis Hm : (m < M)%nat.
  Hypothesis HN : (1 <= N)%nat.
  Hypothesis Hpp : only_clips T pp.

  Lemma wsum : forall X a, ensemble N d X -> let E := map f (map floats X) in msum N (fun j => gibbs a (nth j E NaN) / Rsum (map (gibbs a) E)) = 1.
  Proof.
    intros X a HX E. pose proof (S_pos f M N d m 0 X a HX Hf Hm HN) as SP. fold E in SP.
    assert (LE : length E = N) by (unfold E; rewrite !map_length; apply HX).
    assert (ES : Rsum (map (gibbs a) E) = msum N (fun j => gibbs a (nth j E NaN))).
    { unfold msum. f_equal. apply (nth_ext _ _ 0 0). rewrite !map_length, seq_length; auto. intros j Hj. rewrite map_length, LE in Hj. rewrite nth_map_seq by auto.
      rewrite (nth_map _ _ (gibbs a) E j NaN 0); auto. rewrite LE; auto. }
    set (S := Rsum (map (gibbs a) E)) in *. unfold Rdiv. rewrite msum_scal_r, <- ES. field. lra.
  Qed.

  Lemma plane_step : forall x i y X u b, shape x = [M; N; d] -> run_is x m N d X -> on_plane d u b X -> valid_inputs M i ->
    one_step f eigh smp pp i x = Ok y -> within T y m N d -> shape y = [M; N; d] /\ exists Y, run_is y m N d Y /\ on_plane d u b Y.
  Proof.
    intros x i y X u b Hx HX HP HI HS HW. destruct (proj1 (proj2 (proj2 HI)) m Hm) as (a & Ha & _).
    destruct (step_form f eigh smp M N d m X x i a Hf He Hx Hm HN HX HI Ha) as (y0 & Q & Eq & Sy & PQ & QQ & Hy).
    rewrite Eq in HS. injection HS as <-. split; [exact Sy|].
    set (E := map f (map floats X)) in *. destruct HX as [HX Hxm].
    set (w := fun j => gibbs a (nth j E NaN) / Rsum (map (gibbs a) E)).
    assert (Wp : forall p, In p X -> msum d (fun k => u k * coord k p) = b) by exact HP.
    assert (Wn : forall n, (n < N)%nat -> msum d (fun k => u k * coord k (nth n X [])) = b) by (intros n Hn; apply HP, nth_In; rewrite (proj1 HX); auto).
    assert (Wm : msum d (fun k => u k * gibbs_mean a E X k) = b).
    { rewrite (msum_ext d _ (fun k => msum N (fun j => u k * coord k (nth j X []) * w j))).
      2:{ intros k _. unfold E. rewrite (mean_as_sum f N d X a HX), <- msum_scal. apply msum_ext. intros. unfold w, E. ring. }
      rewrite msum_swap. rewrite (msum_ext N _ (fun j => b * w j)). rewrite msum_scal. change (msum N (fun j => w j)) with (msum N w). replace (msum N w) with 1; [ring|]. symmetry. exact (wsum X a HX).
      intros j Hj. rewrite msum_scal_r, Wn by auto. auto. }
    assert (QC : mquad d (gibbs_cov a E X) u = 0).
    { unfold mquad. rewrite (msum_ext d _ (fun i0 => msum N (fun j => u i0 * (coord i0 (nth j X []) - gibbs_mean a E X i0) * w j * msum d (fun k => u k * (coord k (nth j X []) - gibbs_mean a E X k))))).
      - apply msum_zero. intros i0 _. apply msum_zero. intros j Hj. replace (msum d (fun k => u k * (coord k (nth j X []) - gibbs_mean a E X k))) with 0; [ring|].
        symmetry. rewrite (msum_ext d _ (fun k => u k * coord k (nth j X []) + -1 * (u k * gibbs_mean a E X k))) by (intros; ring). rewrite msum_add, msum_scal, Wm, Wn by auto. ring.
      - intros i0 _. rewrite (msum_ext d _ (fun k => msum N (fun j => u i0 * (coord i0 (nth j X []) - gibbs_mean a E X i0) * w j * (u k * (coord k (nth j X []) - gibbs_mean a E X k))))).
        rewrite msum_swap. apply msum_ext. intros. rewrite msum_scal. auto.
        intros k _. unfold E at 1. rewrite (cov_as_sum f N d X a HX). rewrite <- msum_scal, <- msum_scal_r. apply msum_ext. intros. unfold w, E. ring. }
    pose proof (root_kills d Q _ u (proj1 PQ) QQ QC) as RK.
    set (g := fun n k => coord k (nth n X []) - i_la i * i_dt i * (coord k (nth n X []) - gibbs_mean a E X k) +
           i_sg i * sqrt (gain smp a (i_dt i)) * msum d (fun q => Q k q * rz (i_z i [m; n; q]))).
    assert (HYY : forall n k, (n < N)%nat -> (k < d)%nat -> get (lift1 pp y0) [m; n; k] = Fin (g n k)).
    { intros n k Hn Hk. destruct (HW n k Hn Hk) as (v & Ev & Bv). rewrite Ev. f_equal. cbn [lift1 get] in Ev. rewrite (Hy n k Hn Hk) in Ev. apply (Hpp _ _ Ev Bv). }
    eexists. split. apply (run_is_intro _ m N d g HYY).
    intros p Hp. apply in_map_iff in Hp. destruct Hp as (n & <- & Hn). apply in_seq in Hn.
    rewrite (msum_ext d _ (fun k => (1 - i_la i * i_dt i) * (u k * coord k (nth n X [])) + (i_la i * i_dt i * (u k * gibbs_mean a E X k) +
       i_sg i * sqrt (gain smp a (i_dt i)) * (u k * msum d (fun q => Q k q * rz (i_z i [m; n; q])))))).
    2:{ intros k Hk. unfold coord at 1. rewrite nth_map_seq by auto. unfold g. ring. }
    rewrite !msum_add, !msum_scal, Wm, Wn by lia.
    rewrite (msum_ext d (fun k => u k * msum d (fun q => Q k q * rz (i_z i [m; n; q]))) (fun k => msum d (fun q => u k * Q k q * rz (i_z i [m; n; q])))).
    2:{ intros k _. rewrite <- msum_scal. apply msum_ext. intros; ring. }
    rewrite msum_swap. rewrite msum_zero. ring. intros q Hq. rewrite msum_scal_r, RK by auto. ring.
  Qed.

  Theorem plane_kept : forall x y X u b, shape x = [M; N; d] -> run_is x m N d X -> on_plane d u b X -> unclipped f eigh smp pp T M N d m x y ->
    shape y = [M; N; d] /\ exists Y, run_is y m N d Y /\ on_plane d u b Y.
  Proof.
    intros x y X u b Hx HX HP HU. induction HU as [|y i y' HU (IH1 & Y & IH2 & IH3) HI HS HW]; eauto.
    eapply plane_step; eauto.
  Qed.
End Hull.
Lemma default_clips : forall T, only_clips T (pp_default T false).
Proof.
  intros T v w H B. unfold pp_default, np_clip, fmin, fmax in H. cbn [nan_to_num is_nan orb] in H. unfold fltb in H. cbn in H.
  destruct (Rltb v (- T)) eqn:A; cbn in H.
  - destruct (Rltb T (- T)); injection H as <-; lra.
  - destruct (Rltb T v) eqn:C; injection H as <-; auto. lra.
Qed.

(** ** Moved runs *)
Lemma conj_psd : forall d A C, mpsd d C -> mpsd d (conj d A C).
Proof.
  intros d A C [SC PC]. split.
  - intros i k _ _. unfold conj. rewrite msum_swap. apply msum_ext. intros p Hp. apply msum_ext. intros q Hq. rewrite (SC q p) by auto. ring.
  - intros v. specialize (PC (fun p => msum d (fun i => v i * A i p))). match goal with |- 0 <= ?g => replace g with (mquad d C (fun p => msum d (fun i => v i * A i p))); auto end.
    unfold mquad, conj.
    transitivity (msum d (fun p => msum d (fun q => msum d (fun i => msum d (fun k => v i * A i p * C p q * (v k * A k q)))))).
    + apply msum_ext. intros p _. apply msum_ext. intros q _. rewrite <- !msum_scal_r. apply msum_ext. intros i _. rewrite <- msum_scal. auto.
    + transitivity (msum d (fun i => msum d (fun k => msum d (fun p => msum d (fun q => v i * A i p * C p q * (v k * A k q)))))).
      * rewrite (msum_ext d _ (fun p => msum d (fun i => msum d (fun k => msum d (fun q => v i * A i p * C p q * (v k * A k q)))))).
        2:{ intros p _. rewrite msum_swap. apply msum_ext. intros i _. apply msum_swap. }
        rewrite msum_swap. apply msum_ext. intros i _. apply msum_swap.
      * apply msum_ext. intros i _. apply msum_ext. intros k _. rewrite <- msum_scal, <- msum_scal_r. apply msum_ext. intros p _. rewrite <- msum_scal, <- msum_scal_r. apply msum_ext. intros. ring.
Qed.
Lemma conj_ext : forall d A C C', meq d C C' -> meq d (conj d A C) (conj d A C').
Proof. intros d A C C' H i k Hi Hk. unfold conj. apply msum_ext. intros p Hp. apply msum_ext. intros q Hq. rewrite H; auto. Qed.
(** conj C (A w) = A (C w) *)
Lemma conj_apply : forall d A C (w : nat -> R), orthogonal d A -> forall i, msum d (fun k => conj d A C i k * msum d (fun l => A k l * w l)) = msum d (fun p => A i p * msum d (fun q => C p q * w q)).
Proof.
  intros d A C w O i. unfold conj.
  transitivity (msum d (fun k => msum d (fun p => msum d (fun q => msum d (fun l => A i p * C p q * w l * (A k q * A k l)))))).
  { apply msum_ext. intros k _. rewrite <- msum_scal_r. apply msum_ext. intros p _. rewrite <- msum_scal_r. apply msum_ext. intros q _. rewrite <- msum_scal. apply msum_ext. intros. ring. }
  rewrite msum_swap. apply msum_ext. intros p _. rewrite msum_swap, <- msum_scal. apply msum_ext. intros q Hq. rewrite msum_swap.
  rewrite (msum_ext d _ (fun l => if Nat.eqb q l then A i p * C p q * w l else 0)).
  - rewrite msum_delta by auto. ring.
  - intros l Hl. rewrite msum_scal. specialize (O q l Hq Hl). unfold mmul, mtr, mid in O. rewrite O. destruct (Nat.eqb q l); ring.
Qed.
Lemma conj_mul : forall d A C D, orthogonal d A -> meq d (mmul d (conj d A C) (conj d A D)) (conj d A (mmul d C D)).
Proof.
  intros d A C D O i j Hi Hj. unfold mmul at 1.
  (* column j of conj D is A (D a_j) *)
  rewrite (msum_ext d _ (fun k => conj d A C i k * msum d (fun l => A k l * msum d (fun q => D l q * A j q)))).
  2:{ intros k _. f_equal. unfold conj. apply msum_ext. intros p _. rewrite <- msum_scal. apply msum_ext. intros. ring. }
  rewrite (conj_apply d A C (fun l => msum d (fun q => D l q * A j q)) O). unfold conj, mmul. apply msum_ext. intros p _.
  rewrite (msum_ext d (fun q => C p q * msum d (fun q0 => D q q0 * A j q0)) (fun q => msum d (fun r => C p q * D q r * A j r))) by (intros; rewrite <- msum_scal; apply msum_ext; intros; ring).
  rewrite msum_swap, <- msum_scal. apply msum_ext. intros r _. rewrite !msum_scal_r. ring.
Qed.

Section Moved.
  Variables (f f' : vec -> fl R) (N d : nat) (A : mat) (b : nat -> R) (h : R).
  Hypothesis Hf : finite_obj d f.
  Hypothesis Hff : forall p, length p = d -> f' (floats (affine d A b p)) = fadd (f (floats p)) (Fin h).
  Hypothesis HN : (1 <= N)%nat.

  Lemma affine_length : forall p, length (affine d A b p) = d.
  Proof. intros. unfold affine. rewrite map_length, seq_length. auto. Qed.
  Lemma affine_coord : forall p i, (i < d)%nat -> coord i (affine d A b p) = msum d (fun k => A i k * coord k p) + b i.
  Proof. intros p i Hi. unfold affine, coord at 1. rewrite nth_map_seq by auto. auto. Qed.
  Lemma affine_ensemble : forall X, ensemble N d X -> ensemble N d (map (affine d A b) X).
  Proof. intros X [L HX]. split. rewrite map_length; auto. intros p Hp. apply in_map_iff in Hp. destruct Hp as (q & <- & _). apply affine_length. Qed.
  Lemma affine_nth : forall X n i, ensemble N d X -> (n < N)%nat -> (i < d)%nat -> coord i (nth n (map (affine d A b) X) []) = msum d (fun k => A i k * coord k (nth n X [])) + b i.
  Proof. intros X n i HX Hn Hi. rewrite (nth_map _ _ (affine d A b) X n [] []). apply affine_coord; auto. rewrite (proj1 HX); auto. Qed.
  Lemma weight_moved : forall X a j, ensemble N d X -> (j < N)%nat -> let E := map f (map floats X) in let E' := map f' (map floats (map (affine d A b) X)) in
    gibbs a (nth j E' NaN) / Rsum (map (gibbs a) E') = gibbs a (nth j E NaN) / Rsum (map (gibbs a) E).
  Proof.
    intros X a j HX Hj E E'. assert (EE : map (gibbs a) E' = map (fun e => exp (- a * h) * gibbs a e) E).
    { unfold E, E'. rewrite !map_map. apply map_ext_in. intros p Hp. apply HX in Hp. rewrite Hff by auto. destruct (Hf p Hp) as (v & ->). cbn. rewrite <- exp_plus. f_equal. change (- a * (v + h) = - a * h + - a * v). ring. }
    pose proof (S_pos f 1 N d 0 0 X a HX Hf ltac:(lia) HN) as SP. fold E in SP.
    assert (LE : length E = N) by (unfold E; rewrite !map_length; apply HX). assert (LE' : length E' = N) by (unfold E'; rewrite !map_length; apply HX).
    assert (G : gibbs a (nth j E' NaN) = exp (- a * h) * gibbs a (nth j E NaN)).
    { rewrite <- (nth_map _ _ (gibbs a) E' j NaN 0), EE by lia. rewrite (nth_map _ _ (fun e => exp (- a * h) * gibbs a e) E j NaN 0) by lia. auto. }
    rewrite G, EE. assert (RS : forall l, Rsum (map (fun e => exp (- a * h) * gibbs a e) l) = exp (- a * h) * Rsum (map (gibbs a) l)).
    { induction l; cbn [map]; rewrite ?Rsum_cons, ?IHl. cbn; ring. ring. }
    rewrite RS. field. split. lra. apply Rgt_not_eq, exp_pos.
  Qed.
  Theorem mean_moved : forall X a i, ensemble N d X -> (i < d)%nat ->
    gibbs_mean a (map f' (map floats (map (affine d A b) X))) (map (affine d A b) X) i = msum d (fun k => A i k * gibbs_mean a (map f (map floats X)) X k) + b i.
  Proof.
    intros X a i HX Hi. rewrite (mean_as_sum f' N d _ a (affine_ensemble X HX)).
    set (w := fun j => gibbs a (nth j (map f (map floats X)) NaN) / Rsum (map (gibbs a) (map f (map floats X)))).
    rewrite (msum_ext N _ (fun j => msum d (fun k => A i k * (coord k (nth j X []) * w j)) + b i * w j)).
    2:{ intros j Hj. rewrite weight_moved by auto. fold (w j). rewrite affine_nth by auto. rewrite Rmult_plus_distr_r, <- msum_scal_r. f_equal. apply msum_ext. intros. ring. }
    rewrite msum_add, msum_scal. replace (msum N w) with 1. 2:{ symmetry. exact (wsum f 1 N d 0 Hf ltac:(lia) HN X a HX). }
    f_equal; [|ring]. rewrite msum_swap. apply msum_ext. intros k _. rewrite msum_scal. f_equal. rewrite (mean_as_sum f N d X a HX). auto.
  Qed.
  Theorem cov_moved : forall X a, ensemble N d X ->
    meq d (gibbs_cov a (map f' (map floats (map (affine d A b) X))) (map (affine d A b) X)) (conj d A (gibbs_cov a (map f (map floats X)) X)).
  Proof.
    intros X a HX i k Hi Hk. rewrite (cov_as_sum f' N d _ a (affine_ensemble X HX)).
    set (w := fun j => gibbs a (nth j (map f (map floats X)) NaN) / Rsum (map (gibbs a) (map f (map floats X)))).
    set (dr := fun j p => coord p (nth j X []) - gibbs_mean a (map f (map floats X)) X p).
    rewrite (msum_ext N _ (fun j => msum d (fun p => msum d (fun q => A i p * (dr j p * dr j q * w j) * A k q)))).
    2:{ intros j Hj. rewrite weight_moved by auto. fold (w j). rewrite !affine_nth, !mean_moved by auto.
        assert (DR : forall i, msum d (fun k => A i k * coord k (nth j X [])) + b i - (msum d (fun k => A i k * gibbs_mean a (map f (map floats X)) X k) + b i) = msum d (fun p => A i p * dr j p)).
        { intros i0. rewrite (msum_ext d (fun p => A i0 p * dr j p) (fun p => A i0 p * coord p (nth j X []) + -1 * (A i0 p * gibbs_mean a (map f (map floats X)) X p))) by (intros; unfold dr; ring).
          rewrite msum_add, msum_scal. ring. }
        rewrite !DR. rewrite Rmult_assoc, <- msum_scal_r. apply msum_ext. intros p _. rewrite <- msum_scal_r, <- msum_scal. apply msum_ext. intros. ring. }
    rewrite msum_swap. unfold conj. apply msum_ext. intros p _. rewrite msum_swap. apply msum_ext. intros q _. rewrite msum_scal_r, msum_scal. f_equal. f_equal.
    rewrite (cov_as_sum f N d X a HX). auto.
  Qed.
End Moved.

Theorem moved_run : forall f f' eigh eigh' smp M M' N d m A b h x x' X y y', finite_obj d f -> finite_obj d f' -> eigh_ok d eigh -> eigh_ok d eigh' ->
  (m < M)%nat -> (m < M')%nat -> (1 <= N)%nat -> orthogonal d A ->
  (forall p, length p = d -> f' (floats (affine d A b p)) = fadd (f (floats p)) (Fin h)) ->
  shape x = [M; N; d] -> shape x' = [M'; N; d] -> run_is x m N d X -> run_is x' m N d (map (affine d A b) X) ->
  moved_together f f' eigh eigh' smp M M' d m A x x' y y' ->
  exists Y, run_is y m N d Y /\ run_is y' m N d (map (affine d A b) Y) /\ shape y = [M; N; d] /\ shape y' = [M'; N; d].
Proof.
  intros f f' eigh eigh' smp M M' N d m A b h x x' X y y' Hf Hf' He He' Hm Hm' HN HO Hff Hx Hx' HX HX' HT.
  induction HT as [|y y' i i' z z' HT (Y & HY & HY' & Sy & Sy') HI HI' (T1 & T2 & T3 & T4 & T5) ES ES'].
  exists X; auto.
  destruct (proj1 (proj2 (proj2 HI)) m Hm) as (a & Ha & _). assert (Ha' : get (i_alpha i') [m; 0%nat] = Fin a) by (rewrite T4; auto).
  destruct (step_form f eigh smp M N d m Y y i a Hf He Sy Hm HN HY HI Ha) as (u & Q & Eu & Su & PQ & QQ & Hu).
  destruct (step_form f' eigh' smp M' N d m _ y' i' a Hf' He' Sy' Hm' HN HY' HI' Ha') as (u' & Q' & Eu' & Su' & PQ' & QQ' & Hu').
  rewrite Eu in ES. rewrite Eu' in ES'. injection ES as <-. injection ES' as <-.
  set (E := map f (map floats Y)) in *. set (E' := map f' (map floats (map (affine d A b) Y))) in *.
  pose proof (proj1 HY) as EY.
  assert (QE : meq d Q' (conj d A Q)).
  { apply root_unique; auto. apply conj_psd; auto. intros p q Hp Hq. rewrite QQ' by auto. unfold E'. rewrite (cov_moved f f' N d A b h Hf Hff HN Y a EY p q Hp Hq).
    rewrite conj_mul by auto. symmetry. apply conj_ext; auto. }
  set (g := fun n k => coord k (nth n Y []) - i_la i * i_dt i * (coord k (nth n Y []) - gibbs_mean a E Y k) +
           i_sg i * sqrt (gain smp a (i_dt i)) * msum d (fun q => Q k q * rz (i_z i [m; n; q]))) in *.
  set (Z := map (fun n => map (g n) (seq 0 d)) (seq 0 N)).
  assert (RZ : run_is (lift1 (fun v => v) u) m N d Z) by (apply run_is_intro; exact Hu).
  exists Z. split; [exact RZ|]. split; [|auto]. split. apply affine_ensemble. apply RZ.
  intros n k Hn Hk. cbn [lift1 get]. rewrite Hu' by auto. f_equal. rewrite (affine_nth N d A b Z n k (proj1 RZ) Hn Hk), T1, T2, T3.
  rewrite (msum_ext d (fun k0 => A k k0 * coord k0 (nth n Z [])) (fun p => (1 - i_la i * i_dt i) * (A k p * coord p (nth n Y [])) + (i_la i * i_dt i * (A k p * gibbs_mean a E Y p) +
     i_sg i * sqrt (gain smp a (i_dt i)) * (A k p * msum d (fun q => Q p q * rz (i_z i [m; n; q])))))).
  2:{ intros p Hp. unfold Z. rewrite nth_map_seq by auto. unfold coord at 1. rewrite nth_map_seq by auto. unfold g. ring. }
  rewrite !msum_add, !msum_scal. rewrite (affine_nth N d A b Y n k EY Hn Hk). unfold E'. rewrite (mean_moved f f' N d A b h Hf Hff HN Y a k EY Hk). fold E.
  rewrite (msum_ext d (fun q => Q' k q * rz (i_z i' [m; n; q])) (fun q => conj d A Q k q * msum d (fun l => A q l * rz (i_z i [m; n; l])))).
  2:{ intros q Hq. rewrite QE by auto. f_equal. destruct (proj2 (proj2 (proj2 HI')) [m; n; q]) as (v & Ev). rewrite Ev. cbn [rz].
      apply (T5 n q (fun l => rz (i_z i [m; n; l])) v Hq); auto. intros l _. destruct (proj2 (proj2 (proj2 HI)) [m; n; l]) as (v' & ->). reflexivity. }
  rewrite (conj_apply d A Q (fun l => rz (i_z i [m; n; l])) HO). ring.
Qed.

(** ** The affine combinations of the particles *)
Lemma root_factor : forall d eigh C Q, eigh_ok d eigh -> mpsd d C -> mpsd d Q -> meq d (mmul d Q Q) C -> exists P, meq d Q (mmul d C P).
Proof.
  intros d eigh C Q He HC HQ QQ. pose proof (He C (proj1 HC)) as HE. set (B := fst (eigh d C)) in *. set (V := snd (eigh d C)) in *.
  pose proof (psd_eigenvalues d C B V HE HC) as PB. pose proof (eigen_vdv d C B V HE) as EC. pose proof (mat_sqrt_psd d C B V HE) as PS. pose proof (mat_sqrt_root d C B V HE HC) as RS.
  assert (EQ : meq d Q (mat_sqrt d B V)). { apply root_unique; auto. intros i j Hi Hj. rewrite QQ, RS; auto. }
  exists (vdv d V (fun k => / sqrt (B k))). intros i j Hi Hj. rewrite EQ, mat_sqrt_vdv by auto.
  rewrite (mmul_ext d C (vdv d V B) _ _ EC (fun i j _ _ => eq_refl) i j Hi Hj). rewrite vdv_mul by apply HE.
  unfold vdv. apply msum_ext. intros k Hk. f_equal. f_equal. specialize (PB k Hk). rewrite Rmax_left by lra.
  destruct (Req_dec (B k) 0) as [-> | Hk0]. rewrite sqrt_0. ring.
  assert (0 < sqrt (B k)) by (apply sqrt_lt_R0; lra). rewrite <- (sqrt_sqrt (B k)) at 2 by lra. field. lra.
Qed.
Lemma hull_refl : forall d X j, (j < length X)%nat -> in_hull d X (nth j X []).
Proof.
  intros d X j Hj. exists (fun q => if Nat.eqb j q then 1 else 0). split. apply (msum_delta _ j (fun _ => 1) Hj).
  intros k _. rewrite (msum_ext _ _ (fun q => if Nat.eqb j q then coord k (nth q X []) else 0)). rewrite msum_delta; auto. intros q _. destruct (Nat.eqb j q); ring.
Qed.
Lemma hull_trans : forall d X Y p, (forall j, (j < length Y)%nat -> in_hull d X (nth j Y [])) -> in_hull d Y p -> in_hull d X p.
Proof.
  intros d X Y p H (t & T1 & T2).
  assert (HC : exists s : nat -> nat -> R, forall j, (j < length Y)%nat -> msum (length X) (s j) = 1 /\ forall k, (k < d)%nat -> coord k (nth j Y []) = msum (length X) (fun q => s j q * coord k (nth q X []))).
  { clear T1 T2. revert H. generalize (length Y) as n. induction n; intros H. exists (fun _ _ => 0). intros; lia.
    destruct IHn as (s & Hs). intros; apply H; lia. destruct (H n) as (t0 & A1 & A2); [lia|]. exists (fun j => if Nat.eqb j n then t0 else s j).
    intros j Hj. destruct (Nat.eqb_spec j n) as [-> | Hn]; auto. apply Hs. lia. }
  destruct HC as (s & Hs). exists (fun q => msum (length Y) (fun j => t j * s j q)). split.
  - rewrite msum_swap. rewrite (msum_ext _ _ t); auto. intros j Hj. rewrite msum_scal, (proj1 (Hs j Hj)). ring.
  - intros k Hk. rewrite T2 by auto. rewrite (msum_ext (length Y) _ (fun j => msum (length X) (fun q => t j * s j q * coord k (nth q X [])))).
    2:{ intros j Hj. rewrite (proj2 (Hs j Hj) k Hk), <- msum_scal. apply msum_ext. intros; ring. }
    rewrite msum_swap. apply msum_ext. intros q _. rewrite msum_scal_r. auto.
Qed.

Section Hull2.
  Variables (f : vec -> fl R) (eigh : nat -> mat -> (nat -> R) * mat) (smp : bool) (pp : fl R -> fl R) (T : R) (M N d m : nat).
  Hypothesis Hf : finite_obj d f.
  Hypothesis He : eigh_ok d eigh.
  Hypothesis Hm : (m < M)%nat.
  Hypothesis HN : (1 <= N)%nat.
  Hypothesis Hpp : only_clips T pp.

  Lemma hull_step : forall x i y X, shape x = [M; N; d] -> run_is x m N d X -> valid_inputs M i ->
    one_step f eigh smp pp i x = Ok y -> within T y m N d -> shape y = [M; N; d] /\ exists Y, run_is y m N d Y /\ forall p, In p Y -> in_hull d X p.
  Proof.
    intros x i y X Hx HX HI HS HW. destruct (proj1 (proj2 (proj2 HI)) m Hm) as (a & Ha & _).
    destruct (step_form f eigh smp M N d m X x i a Hf He Hx Hm HN HX HI Ha) as (y0 & Q & Eq & Sy & PQ & QQ & Hy).
    rewrite Eq in HS. injection HS as <-. split; [exact Sy|].
    set (E := map f (map floats X)) in *. destruct HX as [HX Hxm].
    set (w := fun j => gibbs a (nth j E NaN) / Rsum (map (gibbs a) E)).
    assert (Ww : msum N w = 1) by exact (wsum f M N d m Hf Hm HN X a HX).
    assert (Wm : forall k, gibbs_mean a E X k = msum N (fun j => coord k (nth j X []) * w j)) by (intros k; exact (mean_as_sum f N d X a HX k)).
    destruct (root_factor d eigh (gibbs_cov a E X) Q He) as (P & HP); auto. exact (cov_is_psd f M N d m 0 X a HX Hf Hm HN).
    set (g := fun n k => coord k (nth n X []) - i_la i * i_dt i * (coord k (nth n X []) - gibbs_mean a E X k) +
           i_sg i * sqrt (gain smp a (i_dt i)) * msum d (fun q => Q k q * rz (i_z i [m; n; q]))).
    assert (HYY : forall n k, (n < N)%nat -> (k < d)%nat -> get (lift1 pp y0) [m; n; k] = Fin (g n k)).
    { intros n k Hn Hk. destruct (HW n k Hn Hk) as (v & Ev & Bv). rewrite Ev. f_equal. cbn [lift1 get] in Ev. rewrite (Hy n k Hn Hk) in Ev. apply (Hpp _ _ Ev Bv). }
    eexists. split. apply (run_is_intro _ m N d g HYY).
    intros p Hp. apply in_map_iff in Hp. destruct Hp as (n & <- & Hn). apply in_seq in Hn. assert (Hn' : (n < N)%nat) by lia.
    set (e := fun q => msum d (fun r => P q r * rz (i_z i [m; n; r]))).
    (* Q z = C e = sum_j c_j (x_j - mean) *)
    set (c := fun j => w j * msum d (fun q => (coord q (nth j X []) - gibbs_mean a E X q) * e q)).
    assert (QZ : forall k, (k < d)%nat -> msum d (fun q => Q k q * rz (i_z i [m; n; q])) = msum N (fun j => c j * (coord k (nth j X []) - gibbs_mean a E X k))).
    { intros k Hk. rewrite (msum_ext d _ (fun r => msum d (fun q => gibbs_cov a E X k q * (P q r * rz (i_z i [m; n; r]))))).
      2:{ intros r Hr. rewrite (HP k r Hk Hr). unfold mmul. rewrite <- msum_scal_r. apply msum_ext. intros; ring. }
      rewrite msum_swap. rewrite (msum_ext d _ (fun q => msum N (fun j => (coord k (nth j X []) - gibbs_mean a E X k) * (coord q (nth j X []) - gibbs_mean a E X q) * w j * e q))).
      2:{ intros q Hq. rewrite msum_scal. fold (e q). unfold E at 1. rewrite (cov_as_sum f N d X a HX). rewrite <- msum_scal_r. auto. }
      rewrite msum_swap. apply msum_ext. intros j _. unfold c. rewrite <- msum_scal, <- msum_scal_r. apply msum_ext. intros; ring. }
    set (G := i_sg i * sqrt (gain smp a (i_dt i))) in *. set (ld := i_la i * i_dt i) in *.
    set (cs := msum N c). assert (LX : length X = N) by apply HX.
    exists (fun j => (1 - ld) * (if Nat.eqb n j then 1 else 0) + ld * w j + (G * c j + (- (G * cs)) * w j)). rewrite LX. split.
    - rewrite !msum_add, !msum_scal, Ww. fold cs. rewrite (msum_delta N n (fun _ => 1) Hn'). change (msum N (fun j => w j)) with (msum N w). rewrite ?Ww. change (msum N (fun j => c j)) with cs. ring.
    - intros k Hk. unfold coord at 1. rewrite nth_map_seq by auto. unfold g. rewrite QZ by auto.
      rewrite (msum_ext N (fun j => ((1 - ld) * (if Nat.eqb n j then 1 else 0) + ld * w j + (G * c j + - (G * cs) * w j)) * coord k (nth j X []))
        (fun j => (1 - ld) * (if Nat.eqb n j then coord k (nth j X []) else 0) + (ld * (coord k (nth j X []) * w j) + (G * (c j * coord k (nth j X [])) + - (G * cs) * (coord k (nth j X []) * w j))))).
      2:{ intros j _. destruct (Nat.eqb n j); ring. }
      rewrite !msum_add, !msum_scal, <- Wm, msum_delta by auto.
      rewrite (msum_ext N (fun j => c j * (coord k (nth j X []) - gibbs_mean a E X k)) (fun j => c j * coord k (nth j X []) + - gibbs_mean a E X k * c j)) by (intros; ring).
      rewrite msum_add, msum_scal. fold cs. fold G ld. ring.
  Qed.
  Theorem hull_kept : forall x y X, shape x = [M; N; d] -> run_is x m N d X -> unclipped f eigh smp pp T M N d m x y ->
    shape y = [M; N; d] /\ exists Y, run_is y m N d Y /\ forall p, In p Y -> in_hull d X p.
  Proof.
    intros x y X Hx HX HU. induction HU as [|y i y' HU (IH1 & Y & IH2 & IH3) HI HS HW].
    - split; auto. exists X. split; auto. intros p Hp. apply (In_nth _ _ []) in Hp. destruct Hp as (j & Hj & <-). apply hull_refl; auto.
    - destruct (hull_step y i y' Y IH1 IH2 HI HS HW) as (S1 & Z & RZ & HZ). split; auto. exists Z. split; auto. intros p Hp. apply (hull_trans d X Y); auto.
      intros j Hj. apply IH3. apply nth_In; auto.
  Qed.
End Hull2.

(** ** Totality and the choice of the eigenvectors *)
Theorem any_eigh : forall f eigh eigh' smp pp M N d m, finite_obj d f -> eigh_ok d eigh -> eigh_ok d eigh' -> (1 <= N)%nat -> (m < M)%nat ->
  (forall v, exists u, pp (Fin v) = Fin u) -> forall l, (forall i, In i l -> valid_inputs M i) ->
  forall x x' X, shape x = [M; N; d] -> shape x' = [M; N; d] -> run_is x m N d X -> run_is x' m N d X ->
  exists y y' Y, steps_with f eigh smp pp l x = Ok y /\ steps_with f eigh' smp pp l x' = Ok y' /\ shape y = [M; N; d] /\ run_is y m N d Y /\ run_is y' m N d Y.
Proof.
  intros f eigh eigh' smp pp M N d m Hf He He' HN Hm Hpp l. induction l as [|i l IH]; intros HL x x' X Hx Hx' HX HX'.
  - exists x, x', X. auto.
  - assert (HI : valid_inputs M i) by (apply HL; left; auto). destruct (proj1 (proj2 (proj2 HI)) m Hm) as (a & Ha & _).
    destruct (step_form f eigh smp M N d m X x i a Hf He Hx Hm HN HX HI Ha) as (u & Q & Eu & Su & PQ & QQ & Hu).
    destruct (step_form f eigh' smp M N d m X x' i a Hf He' Hx' Hm HN HX' HI Ha) as (u' & Q' & Eu' & Su' & PQ' & QQ' & Hu').
    cbn [steps_with]. rewrite Eu, Eu'. cbn [bind].
    assert (QE : meq d Q' Q). { apply root_unique; auto. intros p q Hp Hq. rewrite QQ, QQ'; auto. }
    set (g := fun n k => coord k (nth n X []) - i_la i * i_dt i * (coord k (nth n X []) - gibbs_mean a (map f (map floats X)) X k) +
           i_sg i * sqrt (gain smp a (i_dt i)) * msum d (fun q => Q k q * rz (i_z i [m; n; q]))) in *.
    assert (R1 : run_is (lift1 pp u) m N d (map (fun n => map (fun k => rz (pp (Fin (g n k)))) (seq 0 d)) (seq 0 N))).
    { apply (run_is_intro _ m N d (fun n k => rz (pp (Fin (g n k))))). intros n k Hn Hk. cbn [lift1 get]. rewrite Hu by auto. fold (g n k). destruct (Hpp (g n k)) as (v & ->). auto. }
    assert (R2 : run_is (lift1 pp u') m N d (map (fun n => map (fun k => rz (pp (Fin (g n k)))) (seq 0 d)) (seq 0 N))).
    { apply (run_is_intro _ m N d (fun n k => rz (pp (Fin (g n k))))). intros n k Hn Hk. cbn [lift1 get]. rewrite Hu' by auto.
      rewrite (msum_ext d (fun q => Q' k q * rz (i_z i [m; n; q])) (fun q => Q k q * rz (i_z i [m; n; q]))) by (intros q Hq; rewrite QE; auto). fold (g n k). destruct (Hpp (g n k)) as (v & ->). auto. }
    apply (IH (fun i' Hi' => HL i' (or_intror Hi')) (lift1 pp u) (lift1 pp u') _ Su Su' R1 R2).
Qed.
Theorem cbs_is_step : forall f eigh noise mode sigma ndim o la dt alpha pp x z, cbs_init noise mode sigma false ndim = Ok o ->
  cbs_step f eigh o (Fin la) (Fin dt) alpha pp x z = one_step f eigh (String.eqb mode "sampling") pp {| i_la := la; i_dt := dt; i_sg := 1; i_alpha := alpha; i_z := z |} x.
Proof.
  intros f eigh noise mode sigma ndim o la dt alpha pp x z HI. unfold cbs_init in HI. destruct (negb _); [discriminate|]. destruct (3 <? ndim)%nat; [discriminate|]. injection HI as <-. reflexivity.
Qed.
