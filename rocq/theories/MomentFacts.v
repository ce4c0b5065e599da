(** * Mean and covariance of one CBO step *)
From Coq Require Import List Arith Bool Reals Lia Lra.
From Verif Require Import Scalar Np NpFacts State Pdyn PdynRun PdynOk Exec RunFacts RVec RVecFacts Consensus ConsSpec ConsFacts PostProc Cbo CboSpec CboFacts MoveFacts AbsorbFacts MomentSpec.
Import ListNotations.
Open Scope R_scope.

Section Uniform.
  Context {Om : Type} (l : list Om) (Hl : l <> []).
  Lemma len_pos : INR (length l) <> 0.
  Proof. apply not_0_INR. destruct l; [congruence|discriminate]. Qed.
  Definition uniform : average Om.
  Proof.
    refine {| mean_is := uniform_mean l |}; unfold uniform_mean.
    - intros g h r H ->. f_equal. f_equal. apply map_ext. auto.
    - intros r. assert (H : forall k : list Om, Rsum (map (fun _ => r) k) = INR (length k) * r).
      { induction k as [|a k IH]; [cbn; ring|]. cbn [map Rsum fold_right length]. fold (Rsum (map (fun _ : Om => r) k)). rewrite IH, S_INR. ring. }
      rewrite H. field. exact len_pos.
    - intros g h r q -> ->. assert (H : forall k : list Om, Rsum (map (fun w => g w + h w) k) = Rsum (map g k) + Rsum (map h k)).
      { induction k as [|a k IH]; [cbn; ring|]. cbn [map Rsum fold_right]. fold (Rsum (map g k)) (Rsum (map h k)) (Rsum (map (fun w => g w + h w) k)). rewrite IH. ring. }
      rewrite H. field. exact len_pos.
    - intros a g r ->. assert (H : forall k : list Om, Rsum (map (fun w => a * g w) k) = a * Rsum (map g k)).
      { induction k as [|b k IH]; [cbn; ring|]. cbn [map Rsum fold_right]. fold (Rsum (map g k)) (Rsum (map (fun w => a * g w) k)). rewrite IH. ring. }
      rewrite H. field. exact len_pos.
  Defined.
End Uniform.

Section Avg.
  Context {Om : Type} (A : average Om).
  Lemma mean_eq : forall g h r q, mean_is A g r -> (forall w, g w = h w) -> r = q -> mean_is A h q.
  Proof. intros g h r q H E <-. eapply avg_ext; eauto. Qed.
  Lemma mean_affine : forall p a g r, mean_is A g r -> mean_is A (fun w => p + a * g w) (p + a * r).
  Proof. intros. apply (avg_add _ A). apply (avg_const _ A). apply (avg_scal _ A); auto. Qed.
  Lemma mean_sum : forall (g : nat -> Om -> R) r l, (forall i, In i l -> mean_is A (g i) (r i)) -> mean_is A (fun w => Rsum (map (fun i => g i w) l)) (Rsum (map r l)).
  Proof.
    intros g r l. induction l as [|i l IH]; intros H. cbn. apply (avg_const _ A 0). cbn [map Rsum fold_right]. apply (avg_add _ A). apply H; left; auto. apply IH. intros; apply H; right; auto.
  Qed.
End Avg.

Lemma sqnorm_coords : forall u d, length u = d -> sqnorm u = Rsum (map (fun i => coord i u * coord i u) (seq 0 d)).
Proof.
  intros u d <-. unfold sqnorm, dot. rewrite map2_same. apply (f_equal Rsum).
  apply (nth_ext _ _ 0 0). rewrite !map_length, seq_length. auto.
  intros n Hn. rewrite map_length in Hn. rewrite (nth_indep _ 0 (0 * 0)) by (rewrite map_length; auto). rewrite (map_nth (fun a => a * a)).
  rewrite nth_map_seq by auto. reflexivity.
Qed.

Section Step.
  Variables (f : vec -> fl R) (k : noise_model) (b : nat) (partial cat : bool) (ks : list (crit R vec)) (save : bool).
  Let c := cbo_cfg f k (fun p => p) NoCorr b partial cat ks save.
  (** the new position of one particle in an unbatched step *)
  Lemma particle_step : forall s log o s' m d X la dt sg a kk n x z, exec c s log -> perms_valid o s -> finite_obj d f ->
    parameters la dt sg s -> b = s_N s -> nth_error (s_active s) kk = Some m -> ensemble_at s m d X -> nth_error (s_alpha s) m = Some [Fin a] ->
    nth_error X n = Some x -> o_z o kk n = floats z -> step c o s = Ok s' ->
    exists xr, nth_error (s_x s') m = Some xr /\ nth_error xr n = Some (floats (rmove k la dt sg (gibbs_point a (map f (map floats X)) d X) x z)).
  Proof.
    intros s log o s' m d X la dt sg a kk n x z E P HF HP HB Hk (Hx & HX) Ha Hn Hz HS.
    pose proof (exec_wf _ _ _ E) as W. 
    destruct (step_positions c s log o s' kk m _ (Fin a) E P (cbo_one_point _ _ _ _ _ _ _ _) eq_refl HS Hk Hx Ha)
      as (xb & cp & xr' & _ & _ & _ & HC & Hx' & _ & _ & HU).
    destruct (HU HB) as [-> ->]. clear HU. eexists. split; [exact Hx'|].
    assert (HN : (1 <= length X)%nat) by (destruct HX as (-> & _); apply W).
    unfold c in HC. rewrite (ccrow_finite f k (fun v => v) b partial cat ks save d _ a HF HN (proj2 HX)) in HC. injection HC as <-.
    rewrite mapi_nth, nth_error_map, Hn. cbn [option_map]. cbn [c cbo_cfg c_pp]. rewrite Hz.
    rewrite (moved_floats f k (fun v => v) b partial cat ks save s la dt sg) by auto. reflexivity.
  Qed.
End Step.

(** variance of the noise in coordinate i, for unit variance of the draws and unit dt *)
Definition spread (k : noise_model) (dr : list R) (i : nat) : R := match k with NConst => 1 | NIso => sqnorm dr | NAniso => coord i dr * coord i dr end.
Definition total_spread (k : noise_model) (dr : list R) : R := match k with NConst => INR (length dr) | NIso => INR (length dr) * sqnorm dr | NAniso => sqnorm dr end.

Lemma noise_coord : forall k dt dr z i d, length dr = d -> length z = d ->
  coord i (rnoise k dt dr z) = sqrt dt * (match k with NConst => 1 | NIso => vnorm dr | NAniso => coord i dr end) * coord i z.
Proof.
  intros k dt dr z i d Hd Hz. unfold rnoise. rewrite coord_vscal. destruct k; [ring|rewrite coord_vscal; ring|rewrite coord_mul by congruence; ring].
Qed.
Lemma spread_sq : forall k dr i, (match k with NConst => 1 | NIso => vnorm dr | NAniso => coord i dr end) * (match k with NConst => 1 | NIso => vnorm dr | NAniso => coord i dr end) = spread k dr i.
Proof. intros [] dr i; cbn; try ring. unfold vnorm. apply sqrt_def. unfold sqnorm, dot. rewrite map2_same. clear. induction dr as [|a l IH]; cbn; [lra|]. fold (Rsum (map (fun x => x * x) l)). pose proof (Rle_0_sqr a). unfold Rsqr in *. lra. Qed.
Lemma total_spread_sum : forall k dr d, length dr = d -> Rsum (map (spread k dr) (seq 0 d)) = total_spread k dr.
Proof.
  intros k dr d H. assert (HC : forall r n o, Rsum (map (fun _ : nat => r) (seq o n)) = INR n * r).
  { intros r n. induction n as [|n IH]; intros o; [cbn; ring|]. cbn [seq map Rsum fold_right]. fold (Rsum (map (fun _ : nat => r) (seq (S o) n))). rewrite IH, S_INR. ring. }
  destruct k. rewrite (map_ext _ (fun _ => 1)) by reflexivity. rewrite HC; cbn; rewrite H; ring. rewrite (map_ext _ (fun _ => sqnorm dr)) by reflexivity. rewrite HC; cbn; rewrite H; ring. symmetry. apply sqnorm_coords. auto.
Qed.

Lemma Rsum_lin : forall (g h : nat -> R) a b l, Rsum (map (fun i => a * g i + b * h i) l) = a * Rsum (map g l) + b * Rsum (map h l).
Proof. intros. induction l as [|i l IH]; cbn; [ring|]. fold (Rsum (map g l)) (Rsum (map h l)) (Rsum (map (fun i => a * g i + b * h i) l)). rewrite IH. ring. Qed.

Section Moments.
  Context {Om : Type} (A : average Om).
  Lemma move_moments : forall k la dt sg cp x d v xi, length cp = d -> length x = d -> 0 <= dt -> white A d v xi ->
    let dr := vsub x cp in let Y := fun w => rmove k la dt sg cp x (xi w) in
    (forall i, (i < d)%nat -> mean_is A (fun w => coord i (Y w)) (coord i x - la * dt * (coord i x - coord i cp))) /\
    (forall i j, (i < d)%nat -> (j < d)%nat -> mean_is A (fun w => (coord i (Y w) - (coord i x - la * dt * (coord i x - coord i cp))) * (coord j (Y w) - (coord j x - la * dt * (coord j x - coord j cp))))
       (if (i =? j)%nat then sg ^ 2 * dt * v * spread k dr i else 0)) /\
    mean_is A (fun w => sqnorm (vsub (Y w) cp)) ((1 - la * dt) ^ 2 * sqnorm dr + sg ^ 2 * dt * v * total_spread k dr).
  Proof.
    intros k la dt sg cp x d v xi Hc Hx Hdt (HL & H1 & H2) dr Y.
    assert (Hdr : length dr = d) by (apply length_vsub; auto).
    set (g := fun i => match k with NConst => 1 | NIso => vnorm dr | NAniso => coord i dr end).
    assert (HY : forall i w, coord i (Y w) = (coord i x - la * dt * (coord i x - coord i cp)) + sg * sqrt dt * g i * coord i (xi w)).
    { intros i w. unfold Y. rewrite (coord_rmove _ _ _ _ _ _ _ _ d) by auto. rewrite (noise_coord _ _ _ _ _ d) by auto. fold dr. unfold g. ring. }
    assert (HQ : sqrt dt * sqrt dt = dt) by (apply sqrt_def; auto).
    assert (HG : forall i, g i * g i = spread k dr i) by (intros; apply spread_sq).
    split; [|split].
    - intros i Hi. eapply mean_eq. apply (mean_affine A (coord i x - la * dt * (coord i x - coord i cp)) (sg * sqrt dt * g i) _ _ (H1 i Hi)). intros w. symmetry. apply HY. ring.
    - intros i j Hi Hj. eapply mean_eq. apply (avg_scal _ A (sg * sqrt dt * g i * (sg * sqrt dt * g j)) _ _ (H2 i j Hi Hj)).
      intros w. rewrite !HY. ring. destruct (Nat.eqb_spec i j) as [<-|N]; [|ring]. rewrite <- HG. transitivity (sg ^ 2 * (sqrt dt * sqrt dt) * v * (g i * g i)); [ring|]. rewrite HQ. ring.
    - eapply mean_eq. apply (mean_sum A (fun i w => ((1 - la * dt) * coord i dr) ^ 2 + (2 * ((1 - la * dt) * coord i dr) * (sg * sqrt dt * g i) * coord i (xi w) + sg ^ 2 * dt * spread k dr i * (coord i (xi w) * coord i (xi w))))
        (fun i => (1 - la * dt) ^ 2 * (coord i dr * coord i dr) + sg ^ 2 * dt * v * spread k dr i) (seq 0 d)).
      + intros i Hi. apply in_seq in Hi. pose proof (H2 i i ltac:(lia) ltac:(lia)) as H2i. rewrite Nat.eqb_refl in H2i.
        eapply mean_eq. apply (avg_add _ A); [apply (avg_const _ A (((1 - la * dt) * coord i dr) ^ 2))|apply (avg_add _ A); [apply (avg_scal _ A (2 * ((1 - la * dt) * coord i dr) * (sg * sqrt dt * g i)) _ _ (H1 i ltac:(lia)))|apply (avg_scal _ A (sg ^ 2 * dt * spread k dr i) _ _ H2i)]].
        reflexivity. ring.
      + intros w. rewrite (sqnorm_coords (vsub (Y w) cp) d). 2:{ apply length_vsub; auto. apply length_rmove; auto. }
        f_equal. apply map_ext. intros i. rewrite coord_vsub by (unfold Y; rewrite (length_rmove _ _ _ _ _ _ _ d); auto). rewrite HY, <- HG. replace (coord i dr) with (coord i x - coord i cp) by (unfold dr; rewrite coord_vsub; congruence). 
        replace (sg ^ 2 * dt * (g i * g i)) with (sg ^ 2 * (sqrt dt * sqrt dt) * (g i * g i)) by (rewrite HQ; ring). ring.
      + rewrite Rsum_lin, (total_spread_sum k dr d Hdr), <- (sqnorm_coords dr d Hdr). reflexivity.
  Qed.
End Moments.

Theorem step_moments : forall Om (A : average Om) f k b partial cat ks save s log m d X la dt sg a kk n x v (o : Om -> orc vec) (xi : Om -> list R),
  let c := cbo_cfg f k (fun p => p) NoCorr b partial cat ks save in
  exec c s log -> finite_obj d f -> parameters la dt sg s -> b = s_N s -> nth_error (s_active s) kk = Some m -> ensemble_at s m d X ->
  nth_error (s_alpha s) m = Some [Fin a] -> nth_error X n = Some x ->
  (forall w, perms_valid (o w) s /\ o_z (o w) kk n = floats (xi w)) -> white A d v xi ->
  let cp := gibbs_point a (map f (map floats X)) d X in let dr := vsub x cp in let mu := fun i => coord i x - la * dt * coord i dr in
  exists Y : Om -> list R, (forall w, exists s' xr, step c (o w) s = Ok s' /\ nth_error (s_x s') m = Some xr /\ nth_error xr n = Some (floats (Y w))) /\
    (forall i, (i < d)%nat -> mean_is A (fun w => coord i (Y w)) (mu i)) /\
    (forall i j, (i < d)%nat -> (j < d)%nat -> mean_is A (fun w => (coord i (Y w) - mu i) * (coord j (Y w) - mu j))
       (if (i =? j)%nat then sg ^ 2 * dt * v * match k with NConst => 1 | NIso => sqnorm dr | NAniso => coord i dr ^ 2 end else 0)) /\
    mean_is A (fun w => sqnorm (vsub (Y w) cp))
      ((1 - la * dt) ^ 2 * sqnorm dr + sg ^ 2 * dt * v * match k with NConst => INR d | NIso => INR d * sqnorm dr | NAniso => sqnorm dr end).
Proof.
  intros Om A f k b partial cat ks save s log m d X la dt sg a kk n x v o xi c HE HF HP HB Hk HX Ha Hn Ho HW cp dr mu.
  assert (Hcp : length cp = d) by (apply gibbs_point_length).
  assert (Hx : length x = d) by (destruct HX as (_ & _ & HX); apply HX; eapply nth_error_In; eauto).
  assert (Hdr : length dr = d) by (apply length_vsub; auto).
  destruct HP as (HP1 & HP2 & HP3 & Hdt).
  destruct (move_moments A k la dt sg cp x d v xi Hcp Hx Hdt HW) as (M1 & M2 & M3).
  exists (fun w => rmove k la dt sg cp x (xi w)). split; [|split; [|split]].
  - intros w. destruct (Ho w) as (P & Hz). destruct (exec_step_good c s log (o w) HE (cbo_plain _ _ _ _ _ _ _ _ _) P) as (s' & HS).
    destruct (particle_step f k b partial cat ks save s log (o w) s' m d X la dt sg a kk n x (xi w)) as (xr & R1 & R2); eauto. unfold parameters; auto.
  - intros i Hi. unfold mu, dr. rewrite coord_vsub by congruence. apply M1; auto.
  - intros i j Hi Hj. unfold mu, dr at 1 2. rewrite !coord_vsub by congruence. eapply mean_eq; [apply (M2 i j Hi Hj)|intros; reflexivity|].
    destruct (i =? j)%nat; auto. fold dr. destruct k; cbn; ring.
  - eapply mean_eq; [exact M3|intros; reflexivity|]. fold dr. destruct k; cbn [total_spread]; rewrite ?Hdr; ring.
Qed.

(** the mean square distance to the consensus shrinks exactly under the following conditions *)
Theorem contraction_condition : forall k la dt sg v d dr, length dr = d -> 0 < sqnorm dr -> 0 < dt ->
  let r := (1 - la * dt) ^ 2 * sqnorm dr + sg ^ 2 * dt * v * match k with NConst => INR d | NIso => INR d * sqnorm dr | NAniso => sqnorm dr end in
  k <> NConst -> (r < sqnorm dr <-> match k with NIso => INR d | _ => 1 end * sg ^ 2 * v < 2 * la - la ^ 2 * dt).
Proof.
  intros k la dt sg v d dr Hd Hp Hdt r Hk. set (g := match k with NIso => INR d | _ => 1 end).
  assert (Hr : r - sqnorm dr = dt * sqnorm dr * (g * sg ^ 2 * v - (2 * la - la ^ 2 * dt))) by (unfold r, g; destruct k; [congruence|ring|ring]).
  assert (P : 0 < dt * sqnorm dr) by (apply Rmult_lt_0_compat; auto). split; intros H.
  - apply Rnot_le_lt. intros N. assert (0 <= dt * sqnorm dr * (g * sg ^ 2 * v - (2 * la - la ^ 2 * dt))) by (apply Rmult_le_pos; lra). lra.
  - assert (dt * sqnorm dr * (g * sg ^ 2 * v - (2 * la - la ^ 2 * dt)) < dt * sqnorm dr * 0) by (apply Rmult_lt_compat_l; lra). lra.
Qed.
(** the default parameters lamda = 1, dt = 0.01, sigma = 5.1 *)
Theorem default_expansion : forall k d dr, length dr = d -> (1 <= d)%nat -> k <> NConst ->
  124 / 100 * sqnorm dr <= (1 - 1 * (1 / 100)) ^ 2 * sqnorm dr + (51 / 10) ^ 2 * (1 / 100) * 1 * match k with NConst => INR d | NIso => INR d * sqnorm dr | NAniso => sqnorm dr end.
Proof.
  intros k d dr Hd H1 Hk. assert (0 <= sqnorm dr). { rewrite (sqnorm_coords dr d Hd). apply Rsum_nonneg. intros y Hy. apply in_map_iff in Hy. destruct Hy as (i & <- & _). apply Rle_0_sqr. }
  assert (1 <= INR d) by (change 1 with (INR 1); apply le_INR; auto). destruct k; [congruence| |lra].
  assert (1 * sqnorm dr <= INR d * sqnorm dr) by (apply Rmult_le_compat_r; auto). lra.
Qed.
