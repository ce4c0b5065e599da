(** * AdamCBO over the reals: moments are weighted sums; bias correction *)
From Coq Require Import String List Arith Bool Permutation Lia Reals Lra.
From Verif Require Import Scalar ScalarFacts RFacts Np NpFacts State Pdyn PdynFacts PdynStep PdynRun PdynOk Exec BcFacts StepFrame
  Memory MemSpec MemFacts MemFacts2 MemFacts3 MemMove Variant VarSpec VarFacts VarMove RVec RVecFacts ConsSpec ConsFacts Consensus Cbo CboFacts RegFacts AdamSpec AdamFacts.
Import ListNotations.
Open Scope nat_scope.
Open Scope list_scope.

(** ** Weighted sums *)
Section Sums.
  Open Scope R_scope.
  Lemma exp_weighted_snoc : forall b l a, exp_weighted b (l ++ [a]) = b * exp_weighted b l + (1 - b) * a.
  Proof.
    intros b l a. unfold exp_weighted. rewrite app_length. cbn [length]. rewrite seq_app, map_app, Rsum_app. cbn [seq map Rsum fold_right plus].
    rewrite app_nth2, Nat.sub_diag by lia. cbn [nth]. replace (length l + 1 - 1 - length l)%nat with 0%nat by lia.
    cbn [pow]. f_equal; [|ring]. rewrite <- Rsum_map_scal. apply Rsum_map_ext. intros i Hi. apply in_seq in Hi.
    rewrite app_nth1 by lia. replace (length l + 1 - 1 - i)%nat with (S (length l - 1 - i)) by lia. cbn [pow]. ring.
  Qed.

  Lemma exp_weighted_const : forall b a k, exp_weighted b (repeat a k) = (1 - b ^ k) * a.
  Proof.
    intros b a k. induction k. { cbn. ring. }
    replace (repeat a (S k)) with (repeat a k ++ [a]). { rewrite exp_weighted_snoc, IHk. cbn. ring. }
    clear IHk. induction k; cbn; auto. f_equal. exact IHk.
  Qed.

  Lemma exp_weighted_nonneg : forall b l, 0 <= b <= 1 -> (forall a, In a l -> 0 <= a) -> 0 <= exp_weighted b l.
  Proof.
    intros b l Hb H. unfold exp_weighted. apply Rsum_map_nonneg. intros i Hi. apply in_seq in Hi.
    apply Rmult_le_pos; [apply Rmult_le_pos; [lra|apply pow_le; lra]|]. apply H. apply nth_In. lia.
  Qed.

  Definition moment (b : R) (d : nat) (ds : list (list R)) : list R := map (fun i => exp_weighted b (map (coord i) ds)) (seq 0 d).
  Definition squares (u : list R) : list R := map2 Rmult u u.

  Lemma coord_moment : forall b d ds i, (i < d)%nat -> coord i (moment b d ds) = exp_weighted b (map (coord i) ds).
  Proof.
    intros. unfold coord at 1, moment. apply nth_error_nth. rewrite nth_error_map, nth_error_seq. destruct (Nat.ltb_spec i d); [auto|lia].
  Qed.
  Lemma length_moment : forall b d ds, length (moment b d ds) = d.
  Proof. intros. unfold moment. rewrite map_length, seq_length. auto. Qed.

  Lemma moment_snoc : forall b d ds u, length u = d -> moment b d (ds ++ [u]) = vadd (vscal b (moment b d ds)) (vscal (1 - b) u).
  Proof.
    intros b d ds u Hu. apply (coord_ext _ _ d). apply length_moment. apply length_vadd; rewrite length_vscal; auto. apply length_moment.
    intros i Hi. rewrite coord_vadd by (rewrite !length_vscal, length_moment; auto). rewrite !coord_vscal, !coord_moment by auto.
    rewrite map_app. apply exp_weighted_snoc.
  Qed.

  Lemma moment_nil : forall b d, moment b d [] = repeat 0 d.
  Proof.
    intros. unfold moment. cbn. generalize 0%nat. induction d; intros; cbn; auto. f_equal. apply IHd.
  Qed.

  Lemma moment_const : forall b d u k, length u = d -> moment b d (repeat u k) = vscal (1 - b ^ k) u.
  Proof.
    intros b d u k Hu. apply (coord_ext _ _ d). apply length_moment. rewrite length_vscal; auto.
    intros i Hi. rewrite coord_moment, coord_vscal by auto. rewrite <- (exp_weighted_const b (coord i u) k). f_equal.
    clear. induction k; cbn; auto. rewrite IHk. auto.
  Qed.

  Lemma np_sq_floats : forall u, np_sq (floats u) = floats (squares u).
  Proof. intros. unfold np_sq, floats, squares. induction u; cbn; auto. f_equal. auto. Qed.

  Lemma fpow_fin : forall b n, fpow (Fin b) n = Fin (b ^ n).
  Proof. intros b n. induction n; cbn; auto. rewrite IHn. auto. Qed.

  Lemma pow_lt_1 : forall b n, 0 <= b < 1 -> b ^ (S n) < 1.
  Proof.
    intros b n Hb. cbn. assert (b ^ n <= 1). { rewrite <- (pow1 n). apply pow_incr. lra. }
    assert (0 <= b ^ n) by (apply pow_le; lra). nra.
  Qed.

  Lemma factor_fin : forall b n, 0 <= b < 1 -> adam_factor (Fin b) n = Fin (1 / (1 - b ^ (S n))).
  Proof.
    intros b n Hb. unfold adam_factor. rewrite fpow_fin. cbn [fsub ksub KOps_R k1]. pose proof (pow_lt_1 b n Hb).
    apply fdiv_fin. lra.
  Qed.

  Lemma pow_inj : forall b j k, 0 < b < 1 -> b ^ j = b ^ k -> j = k.
  Proof.
    intros b j k Hb.
    assert (HL : forall j k, (j < k)%nat -> b ^ k < b ^ j).
    { intros j0 k0 H. replace k0 with (j0 + S (k0 - j0 - 1))%nat by lia. rewrite pow_add.
      pose proof (pow_lt_1 b (k0 - j0 - 1) ltac:(lra)). pose proof (pow_lt b j0 ltac:(lra)). nra. }
    intros H. destruct (lt_eq_lt_dec j k) as [[L|L]|L]; auto; apply HL in L; lra.
  Qed.
End Sums.

Lemma last_index_last : forall n l i, last_index n l = Some i -> forall i', i < i' -> nth_error l i' <> Some n.
Proof.
  intros n l. induction l as [|a l IH]; intros i H i' Hi; cbn in H. discriminate.
  destruct (last_index n l) as [k|] eqn:E.
  - injection H as <-. destruct i'; [lia|]. cbn. apply (IH k); auto. lia.
  - destruct (a =? n); [|discriminate]. injection H as <-. destruct i'; [lia|]. cbn. intros Hc. apply nth_error_In in Hc.
    apply last_index_None in E. auto.
Qed.

Section AdamR.
  Variables (f : vec -> fl R) (k : noise_model) (pp : vec -> vec) (co : corr R) (bs : nat) (partial cat : bool)
    (ks : list (crit R vec)) (save : bool).
  Let c := cbo_cfg f k pp co bs partial cat ks save.
  Variables (b0 b1 eps : R) (d : nat).
  Notation par := (mkapar (Fin b0) (Fin b1) (Fin eps)).
  Notation inner := (adam_inner np_sq np_quot par).
  Notation attr := (adam_attr (floats (repeat 0%R d))).

  Lemma cone : one_consensus_point c.
  Proof. intros e x a. reflexivity. Qed.

  Lemma adam_vexec : forall s e D, adam_exec inner attr c (s, e) D -> exists n log, vexec inner attr c n (s, e) log.
  Proof.
    intros s e D H. remember (s, e) as p eqn:Ep. revert s e Ep. induction H; intros s1 e1 Ep; injection Ep as <- <-.
    - exists 0, []. constructor; auto.
    - destruct (IHadam_exec _ _ eq_refl) as (n & log & Hv). do 2 eexists. eapply vx_step; eauto.
    - destruct (IHadam_exec _ _ eq_refl) as (n & log & Hv). do 2 eexists. eapply vx_term; eauto.
    - destruct (IHadam_exec _ _ eq_refl) as (n & log & Hv). do 2 eexists. eapply vx_params; eauto.
    - destruct (IHadam_exec _ _ eq_refl) as (n & log & Hv). do 2 eexists. eapply vx_reset; eauto.
  Qed.

  Lemma adam_inv : forall s m v D, adam_exec inner attr c (s, (m, v)) D -> wf c s /\ rect (s_M s) (s_N s) m /\ rect (s_M s) (s_N s) v.
  Proof.
    intros s m v D H. destruct (adam_vexec _ _ _ H) as (n & log & Hv).
    exact (vexec_inv _ _ _ _ (adam_regular np_sq np_quot par) (attr_adam _) c n s (m, v) log I Hv).
  Qed.

  Lemma index_of_None : forall m l, ~ In m l -> index_of m l = None.
  Proof. induction l; intros H; cbn; auto. destruct (Nat.eqb_spec a m). { exfalso. apply H. cbn; auto. } rewrite IHl; auto. intros HI. apply H. cbn; auto. Qed.
  Lemma index_of_nth : forall m l, NoDup l -> In m l -> exists j, index_of m l = Some j /\ nth_error l j = Some m.
  Proof.
    induction l; intros ND H; cbn in *. tauto. destruct (Nat.eqb_spec a m). { subst. exists 0. auto. }
    destruct H; [congruence|]. inversion ND; subst. destruct IHl as (j & E1 & E2); auto. exists (S j). rewrite E1. auto.
  Qed.

  Lemma vstep_MN : forall o s e s' e' D, adam_exec inner attr c (s, e) D -> perms_valid o s -> s_active s <> [] ->
    vstep inner c o (s, e) = Ok (s', e') -> s_M s' = s_M s /\ s_N s' = s_N s.
  Proof.
    intros o s [m v] s' e' D H P HA HS. destruct (adam_inv _ _ _ _ H) as (W & R).
    destruct (vstep_good _ _ _ (adam_regular np_sq np_quot par) c o s (m, v) s' e' I W (perms_valid_ok _ _ P) HA R HS) as [GS _].
    destruct GS as (_ & (EM & EN & _) & _). auto.
  Qed.

  Lemma app_floats_inv : forall (l : list vec) a us, l ++ [a] = map floats us ->
    exists us0 u, us = us0 ++ [u] /\ l = map floats us0 /\ a = floats u.
  Proof.
    intros l a us H. destruct us as [|u0 us0] using rev_ind. { destruct l; discriminate. } clear IHus0.
    rewrite map_app in H. cbn [map] in H. apply app_inj_tail in H. destruct H as [-> ->]. eauto 6.
  Qed.

  (** the drift of one step *)
  Lemma drift_at_char : forall o s m v s' m' v' D r n, adam_exec inner attr c (s, (m, v)) D -> perms_valid o s -> s_active s <> [] ->
    vstep inner c o (s, (m, v)) = Ok (s', (m', v')) -> n < s_N s ->
    ((~ In r (s_active s) \/ ~ In n (run_selp c o s r)) /\ drift_at s s' r n = [] /\ cell m' r n = cell m r n /\ cell v' r n = cell v r n /\
      cell (s_x s') r n = option_map pp (cell (s_x s) r n)) \/
    (exists j i xv mv vv dv, nth_error (s_active s) j = Some r /\ nth_error (run_selp c o s r) i = Some n /\
       (forall i', i < i' -> nth_error (run_selp c o s r) i' <> Some n) /\
       drift_at s s' r n = [dv] /\ cell (s_x s) r n = Some xv /\
       cell m r n = Some mv /\ cell v r n = Some vv /\
       (exists xr xb a cv, nth_error (s_x s) r = Some xr /\ nth_error (s_alpha s) r = Some [a] /\ takeM xr (run_sel c o s r) = Ok xb /\
           cc_default (map f xb) xb a = [cv] /\ dv = map2 fsub xv cv) /\
       let mn := map2 fadd (map (fmul (Fin b0)) mv) (map (fmul (Fin (1 - b0)%R)) dv) in
       let vn := map2 fadd (map (fmul (Fin b1)) vv) (map (fmul (Fin (1 - b1)%R)) (np_sq dv)) in
       cell m' r n = Some mn /\ cell v' r n = Some vn /\
       cell (s_x s') r n = Some (pp (map2 fsub xv (map2 fsub (map (fmul (s_lamda s)) (np_quot (Fin eps)
           (map (fmul (adam_factor (Fin b0) (s_it s))) mn) (map (fmul (adam_factor (Fin b1) (s_it s))) vn)))
           (map (fmul (s_sigma s)) (noise_of k (s_dt s) dv (o_z o j i))))))).
  Proof.
    intros o s m v s' m' v' D r n H P HA HS Hn. destruct (adam_inv _ _ _ _ H) as (W & Rm & Rv).
    destruct (adam_step_char np_sq np_quot par c o s m v s' m' v' W P cone HA Rm Rv HS)
      as (_ & HI & dd & Ed & HC).
    destruct (in_dec Nat.eq_dec r (s_active s)) as [Hr|Hr].
    - destruct (index_of_nth r (s_active s)) as (j & E1 & E2); auto. { apply incr_NoDup, W. }
      destruct (HC _ _ _ E2 Hn) as [BP HC']. destruct (last_index n (run_selp c o s r)) as [i|] eqn:Ei.
      + right. destruct HC' as (xv & mv & vv & dv & H1 & H2 & H3 & H4 & H0 & H5 & H6 & H7).
        exists j, i, xv, mv, vv, dv. split; auto. split. { apply last_index_Some; auto. }
        split. { apply last_index_last; auto. }
        split. { unfold drift_at. rewrite E1, Ed, BP, H4. auto. }
        auto 10.
      + left. destruct HC' as (H1 & H2 & H3). split. { right. apply last_index_None; auto. }
        split. { unfold drift_at. rewrite E1, Ed, BP. auto. } auto.
    - left. split; auto. split. { unfold drift_at. rewrite index_of_None; auto. }
      destruct (HI r Hr) as (H1 & H2 & H3). unfold cell. rewrite H1, H2, H3. split; auto. split; auto.
      destruct (nth_error (s_x s) r) as [row|]; cbn; auto. rewrite nth_error_map. auto.
  Qed.

  (** the moments are the exponentially weighted sums of all drifts and of their squares *)
  Theorem adam_moments : forall s m v D r n us, adam_exec inner attr c (s, (m, v)) D -> r < s_M s -> n < s_N s ->
    D r n = map floats us -> (forall u, In u us -> length u = d) ->
    cell m r n = Some (floats (moment b0 d us)) /\ cell v r n = Some (floats (moment b1 d (map squares us))).
  Proof.
    intros s m v D r n us H. remember (s, (m, v)) as p eqn:Ep. revert s m v us Ep.
    induction H; intros s1 m1 v1 us Ep Hr Hn HD Hus.
    - injection Ep as <- E1 E2. symmetry in HD. apply map_eq_nil in HD. subst us. cbn [map].
      assert (W : wf c s) by (apply constructed_wf; auto).
      destruct (cell_rect _ _ _ _ r n (w_x _ _ W) Hr Hn) as [xv Hx].
      rewrite <- E1, <- E2, !moment_nil. split; exact (cell_map_some _ _ _ _ _ _ _ Hx).
    - injection Ep as <- ->. destruct e as [m v].
      destruct (vstep_MN _ _ _ _ _ _ H H0 H1 H2) as [EM EN]. rewrite EM in Hr. rewrite EN in Hn.
      destruct (drift_at_char o s m v s' m1 v1 D r n H H0 H1 H2 Hn) as
        [(_ & Ed & E1 & E2 & _)|(j & i & xv & mv & vv & dv & Hj & _ & _ & Ed & Hx & Hm & Hv & _ & Qm & Qv & _)]; rewrite Ed in HD.
      + rewrite app_nil_r in HD. rewrite E1, E2. exact (IHadam_exec s m v us eq_refl Hr Hn HD Hus).
      + apply app_floats_inv in HD. destruct HD as (us0 & u & -> & HD & ->).
        destruct (IHadam_exec s m v us0 eq_refl Hr Hn HD) as [I1 I2]. { intros w Hw. apply Hus, in_or_app. auto. }
        rewrite Hm in I1. injection I1 as ->. rewrite Hv in I2. injection I2 as ->.
        assert (Lu : length u = d) by (apply Hus, in_or_app; cbn; auto).
        rewrite Qm, Qv, np_sq_floats, !floats_scal, !floats_add, map_app. cbn [map].
        rewrite !moment_snoc; auto. unfold squares. rewrite map2_length. lia.
    - injection Ep as <- ->. destruct (terminate_MN _ _ _ _ H0) as (EM & EN & _).
      apply (IHadam_exec s m1 v1); auto; lia.
    - injection Ep as <- ->. destruct (params_MN _ _ H0) as (EM & EN & _).
      apply (IHadam_exec s m1 v1); auto; lia.
    - injection Ep as <- ->. destruct (reset_MN s) as (EM & EN & _).
      apply (IHadam_exec s m1 v1); auto; lia.
  Qed.

  Lemma map_const_repeat : forall A (a : A) l, (forall x, In x l -> x = a) -> l = repeat a (length l).
  Proof. induction l; intros H; cbn; auto. f_equal. apply H; cbn; auto. apply IHl. intros; apply H; cbn; auto. Qed.

  (** constant drift: the corrected first moment after a step *)
  Theorem adam_constant : forall s m v D o s' m' v' r n u j, adam_exec inner attr c (s, (m, v)) D ->
    perms_valid o s -> s_active s <> [] -> vstep inner c o (s, (m, v)) = Ok (s', (m', v')) -> r < s_M s -> n < s_N s ->
    D r n ++ drift_at s s' r n = repeat (floats u) j -> length u = d ->
    cell m' r n = Some (floats (vscal (1 - b0 ^ j) u)) /\ cell v' r n = Some (floats (vscal (1 - b1 ^ j) (squares u))).
  Proof.
    intros s m v D o s' m' v' r n u j H P HA HS Hr Hn HD Hu.
    destruct (vstep_MN _ _ _ _ _ _ H P HA HS) as [EM EN].
    assert (HX : adam_exec inner attr c (s', (m', v')) (fun a b => D a b ++ drift_at s s' a b)) by (eapply ax_step; eauto).
    assert (Hmap : forall (g : list R -> list R), map g (repeat u j) = repeat (g u) j). { intros. clear. induction j; cbn; auto. f_equal. auto. }
    destruct (adam_moments s' m' v' _ r n (repeat u j) HX) as [E1 E2]; try lia.
    - cbv beta. rewrite HD. clear. induction j; cbn; auto. f_equal. auto.
    - intros w Hw. apply repeat_spec in Hw. subst. auto.
    - rewrite moment_const in E1 by auto. rewrite Hmap, moment_const in E2; auto. unfold squares. rewrite map2_length. lia.
  Qed.

  Theorem adam_never_raises : forall o s m v D, adam_exec inner attr c (s, (m, v)) D -> perms_valid o s -> s_active s <> [] ->
    exists r, vstep inner c o (s, (m, v)) = Ok r.
  Proof. intros o s m v D H P HA. destruct (adam_inv _ _ _ _ H) as (W & Rm & Rv). apply adam_step_ok; auto. exact cone. Qed.

  Hypothesis Hb0 : (0 <= b0 < 1)%R.
  Hypothesis Hb1 : (0 <= b1 < 1)%R.

  Lemma scal_scal : forall a b u, vscal a (vscal b u) = vscal (a * b) u.
  Proof. intros. unfold vscal. rewrite map_map. apply map_ext. intros. ring. Qed.

  Theorem adam_corrected : forall s m v D o s' m' v' r n u j, adam_exec inner attr c (s, (m, v)) D ->
    perms_valid o s -> s_active s <> [] -> vstep inner c o (s, (m, v)) = Ok (s', (m', v')) -> r < s_M s -> n < s_N s ->
    D r n ++ drift_at s s' r n = repeat (floats u) j -> length u = d ->
    exists mn vn, cell m' r n = Some mn /\ cell v' r n = Some vn /\
      map (fmul (adam_factor (Fin b0) (s_it s))) mn = floats (vscal ((1 - b0 ^ j) / (1 - b0 ^ (S (s_it s)))) u) /\
      map (fmul (adam_factor (Fin b1) (s_it s))) vn = floats (vscal ((1 - b1 ^ j) / (1 - b1 ^ (S (s_it s)))) (squares u)).
  Proof.
    intros s m v D o s' m' v' r n u j H P HA HS Hr Hn HD Hu.
    destruct (adam_constant _ _ _ _ _ _ _ _ _ _ _ _ H P HA HS Hr Hn HD Hu) as [E1 E2].
    do 2 eexists. split. exact E1. split. exact E2. rewrite !factor_fin, !floats_scal, !scal_scal by auto.
    split; do 2 f_equal; unfold Rdiv; ring.
  Qed.

  Lemma ratio_one : forall b i j, (0 < b < 1)%R -> ((1 - b ^ j) / (1 - b ^ S i) = 1 <-> j = S i)%R.
  Proof.
    intros b i j Hb. pose proof (pow_lt_1 b i ltac:(lra)) as HL. split.
    - intros E. apply (pow_inj b); auto. assert (1 - b ^ j = 1 - b ^ S i)%R; [|lra].
      apply (Rmult_eq_compat_r (1 - b ^ S i)) in E. unfold Rdiv in E. rewrite Rmult_assoc, Rinv_l in E by lra. lra.
    - intros ->. field. lra.
  Qed.

  (** it equals the drift exactly when the particle has received as many drifts as the iteration counter says *)
  Theorem adam_bias_iff : forall s m v D o s' m' v' r n u j mn, adam_exec inner attr c (s, (m, v)) D ->
    perms_valid o s -> s_active s <> [] -> vstep inner c o (s, (m, v)) = Ok (s', (m', v')) -> r < s_M s -> n < s_N s ->
    D r n ++ drift_at s s' r n = repeat (floats u) j -> length u = d -> (exists a, In a u /\ a <> 0%R) -> (0 < b0)%R ->
    cell m' r n = Some mn ->
    (map (fmul (adam_factor (Fin b0) (s_it s))) mn = floats u <-> j = S (s_it s)).
  Proof.
    intros s m v D o s' m' v' r n u j mn H P HA HS Hr Hn HD Hu (a & Ha & Hna) Hb Hmn.
    destruct (adam_corrected _ _ _ _ _ _ _ _ _ _ _ _ H P HA HS Hr Hn HD Hu) as (mn' & vn & E1 & _ & E2 & _).
    rewrite Hmn in E1. injection E1 as <-. rewrite E2. rewrite <- (ratio_one b0) by lra. split.
    - intros E. apply floats_inj in E. apply In_nth with (d := 0%R) in Ha. destruct Ha as (i & Hi & Ei).
      assert (Q : coord i (vscal ((1 - b0 ^ j) / (1 - b0 ^ S (s_it s))) u) = coord i u) by (rewrite E; auto).
      rewrite coord_vscal in Q. unfold coord in Q. rewrite Ei in Q. apply (Rmult_eq_reg_r a); auto. lra.
    - intros ->. f_equal. unfold vscal. rewrite <- (map_id u) at 2. apply map_ext. intros. ring.
  Qed.

  Theorem adam_bias_exact : forall s m v D o s' m' v' r n u, adam_exec inner attr c (s, (m, v)) D ->
    perms_valid o s -> s_active s <> [] -> vstep inner c o (s, (m, v)) = Ok (s', (m', v')) -> r < s_M s -> n < s_N s ->
    D r n ++ drift_at s s' r n = repeat (floats u) (S (s_it s)) -> length u = d ->
    exists mn vn, cell m' r n = Some mn /\ cell v' r n = Some vn /\
      map (fmul (adam_factor (Fin b0) (s_it s))) mn = floats u /\
      map (fmul (adam_factor (Fin b1) (s_it s))) vn = floats (squares u).
  Proof.
    intros s m v D o s' m' v' r n u H P HA HS Hr Hn HD Hu.
    destruct (adam_corrected _ _ _ _ _ _ _ _ _ _ _ _ H P HA HS Hr Hn HD Hu) as (mn & vn & E1 & E2 & E3 & E4).
    exists mn, vn. split; auto. split; auto.
    assert (HQ : forall b w, (0 <= b < 1)%R -> vscal ((1 - b ^ S (s_it s)) / (1 - b ^ S (s_it s))) w = w).
    { intros b w Hb. pose proof (pow_lt_1 b (s_it s) Hb). unfold vscal. rewrite <- (map_id w) at 2. apply map_ext. intros. field. lra. }
    rewrite E3, E4, !HQ; auto.
  Qed.

  (** the second moment is never negative *)
  Theorem adam_second_nonneg : forall s m v D r n us, adam_exec inner attr c (s, (m, v)) D -> r < s_M s -> n < s_N s ->
    D r n = map floats us -> (forall u, In u us -> length u = d) ->
    exists w, cell v r n = Some (floats w) /\ forall a, In a w -> (0 <= a)%R.
  Proof.
    intros s m v D r n us H Hr Hn HD Hus. destruct (adam_moments _ _ _ _ _ _ _ H Hr Hn HD Hus) as [_ E].
    eexists. split. exact E. intros a Ha. unfold moment in Ha. apply in_map_iff in Ha. destruct Ha as (i & <- & _).
    apply exp_weighted_nonneg. lra. intros a Ha. apply in_map_iff in Ha. destruct Ha as (w & <- & Hw).
    apply in_map_iff in Hw. destruct Hw as (u & <- & _). unfold squares. rewrite coord_mul by auto. nra.
  Qed.

  Lemma constructed_it : forall s, constructed c s -> s_it s = 0.
  Proof.
    intros s (x0 & ch & al & sg & la & dt & p0 & nm & ex & sv & _ & _ & _ & _ & _ & H). unfold init in H. cbv zeta in H.
    apply bind_ok in H. destruct H as (bp & _ & H). injection H as <-.
    match goal with |- context [init_history ?a ?b ?c ?d] => destruct (init_history_char a b c d) as (ts & h & E & _); rewrite E end. auto.
  Qed.

  (** without resets and while the run is active, the iteration counter is the number of drifts *)
  Theorem adam_uninterrupted_count : forall r s m v D, adam_uninterrupted inner attr c r (s, (m, v)) D -> adam_full c s ->
    adam_exec inner attr c (s, (m, v)) D /\ forall n, n < s_N s -> length (D r n) = s_it s.
  Proof.
    intros r s m v D H. remember (s, (m, v)) as p eqn:Ep. revert s m v Ep.
    assert (HE : adam_exec inner attr c p D).
    { clear -H. induction H. constructor; auto. eapply ax_step; eauto. intros E. rewrite E in H1. destruct H1.
      eapply ax_term; eauto. eapply ax_params; eauto. }
    split; [subst; auto|]. clear HE. revert s m v Ep H0.
    induction H; intros s1 m1 v1 Ep FU n Hn.
    - injection Ep as <- _. cbn. symmetry. apply constructed_it; auto.
    - injection Ep as <- ->. destruct e as [m v].
      assert (HE : adam_exec inner attr c (s, (m, v)) D).
      { clear -H. remember (s, (m, v)) as p. clear Heqp. induction H. constructor; auto. eapply ax_step; eauto. intros E. rewrite E in H1. destruct H1.
        eapply ax_term; eauto. eapply ax_params; eauto. }
      assert (HA : s_active s <> []) by (intros E; rewrite E in H1; destruct H1).
      destruct (vstep_MN _ _ _ _ _ _ HE H0 HA H2) as [EM EN]. rewrite EN in Hn.
      assert (FU0 : adam_full c s) by (unfold adam_full in *; rewrite EN in FU; auto).
      destruct (drift_at_char o s m v s' m1 v1 D r n HE H0 HA H2 Hn) as
        [([NI|NI] & _)|(j & i & xv & mv & vv & dv & Hj & _ & _ & Ed & _)]; [contradiction| |].
      { exfalso. apply NI. rewrite full_sel by auto. apply in_seq. lia. }
      rewrite Ed, app_length, (IHadam_uninterrupted s m v eq_refl FU0 n Hn). cbn [length].
      destruct (adam_inv _ _ _ _ HE) as (W & Rm & Rv).
      destruct (adam_step_char np_sq np_quot par c o s m v s' m1 v1 W H0 cone HA Rm Rv H2) as (E & _).
      lia.
    - injection Ep as <- ->. destruct (terminate_MN _ _ _ _ H0) as (EM & EN & _).
      assert (Ei : s_it s' = s_it s). { apply terminate_char in H0. destruct H0 as (act & reason & -> & _). auto. }
      rewrite Ei. apply (IHadam_uninterrupted s m1 v1); auto; try lia; unfold adam_full in *; rewrite EN in FU; auto.
    - injection Ep as <- ->. destruct (params_MN _ _ H0) as (EM & EN & _).
      assert (Ei : s_it s' = s_it s). { destruct H0 as (al & sg & la & dt & _ & ->). auto. }
      rewrite Ei. apply (IHadam_uninterrupted s m1 v1); auto; try lia; unfold adam_full in *; rewrite EN in FU; auto.
  Qed.

  (** in any case it is at least the number of drifts, and a particle that has missed a batch has received fewer *)
  Theorem adam_uninterrupted_le : forall r s m v D, adam_uninterrupted inner attr c r (s, (m, v)) D ->
    adam_exec inner attr c (s, (m, v)) D /\ forall n, n < s_N s -> length (D r n) <= s_it s.
  Proof.
    intros r s m v D H. remember (s, (m, v)) as p eqn:Ep.
    assert (HE : adam_exec inner attr c p D).
    { clear -H. induction H. constructor; auto. eapply ax_step; eauto. intros E. rewrite E in H1. destruct H1.
      eapply ax_term; eauto. eapply ax_params; eauto. }
    split; auto. clear HE. revert s m v Ep.
    induction H; intros s1 m1 v1 Ep n Hn.
    - injection Ep as <- _. cbn. lia.
    - injection Ep as <- ->. destruct e as [m v].
      assert (HE : adam_exec inner attr c (s, (m, v)) D).
      { clear -H. remember (s, (m, v)) as p. clear Heqp. induction H. constructor; auto. eapply ax_step; eauto. intros E. rewrite E in H1. destruct H1.
        eapply ax_term; eauto. eapply ax_params; eauto. }
      assert (HA : s_active s <> []) by (intros E; rewrite E in H1; destruct H1).
      destruct (vstep_MN _ _ _ _ _ _ HE H0 HA H2) as [EM EN]. rewrite EN in Hn.
      pose proof (IHadam_uninterrupted s m v eq_refl n Hn) as IH.
      destruct (adam_inv _ _ _ _ HE) as (W & Rm & Rv).
      destruct (adam_step_char np_sq np_quot par c o s m v s' m1 v1 W H0 cone HA Rm Rv H2) as (E & _).
      rewrite app_length.
      destruct (drift_at_char o s m v s' m1 v1 D r n HE H0 HA H2 Hn) as
        [(_ & Ed & _)|(j & i & xv & mv & vv & dv & Hj & _ & _ & Ed & _)]; rewrite Ed; cbn [length]; lia.
    - injection Ep as <- ->. destruct (terminate_MN _ _ _ _ H0) as (EM & EN & _).
      assert (Ei : s_it s' = s_it s). { apply terminate_char in H0. destruct H0 as (act & reason & -> & _). auto. }
      rewrite Ei. apply (IHadam_uninterrupted s m1 v1); auto; lia.
    - injection Ep as <- ->. destruct (params_MN _ _ H0) as (EM & EN & _).
      assert (Ei : s_it s' = s_it s). { destruct H0 as (al & sg & la & dt & _ & ->). auto. }
      rewrite Ei. apply (IHadam_uninterrupted s m1 v1); auto; lia.
  Qed.

  (** a step whose batch does not contain the particle *)
  Theorem adam_missed : forall r s m v D o s' m' v' n, adam_uninterrupted inner attr c r (s, (m, v)) D -> perms_valid o s -> In r (s_active s) ->
    vstep inner c o (s, (m, v)) = Ok (s', (m', v')) -> n < s_N s -> ~ In n (run_selp c o s r) ->
    length (D r n ++ drift_at s s' r n) < s_it s'.
  Proof.
    intros r s m v D o s' m' v' n H P HA HS Hn NI. destruct (adam_uninterrupted_le _ _ _ _ _ H) as [HE HL].
    assert (HA' : s_active s <> []) by (intros E; rewrite E in HA; destruct HA).
    destruct (adam_inv _ _ _ _ HE) as (W & Rm & Rv).
    destruct (adam_step_char np_sq np_quot par c o s m v s' m' v' W P cone HA' Rm Rv HS) as (E & _).
    destruct (drift_at_char o s m v s' m' v' D r n HE P HA' HS Hn) as
        [(_ & Ed & _)|(j & i & xv & mv & vv & dv & Hj & Hi & _)].
    - rewrite Ed, app_nil_r, E. specialize (HL n Hn). lia.
    - exfalso. apply NI. eapply nth_error_In; eauto.
  Qed.

  (** … from then on the correction factor is too small: the corrected moment of a constant drift is a proper fraction of the drift *)
  Theorem adam_partial : forall r s m v D o s' m' v' n u, adam_uninterrupted inner attr c r (s, (m, v)) D -> perms_valid o s -> In r (s_active s) ->
    vstep inner c o (s, (m, v)) = Ok (s', (m', v')) -> r < s_M s -> n < s_N s ->
    length (D r n) < s_it s -> drift_at s s' r n <> [] -> (forall w, In w (D r n ++ drift_at s s' r n) -> w = floats u) -> length u = d ->
    (0 < b0)%R -> (0 < b1)%R ->
    exists mn vn q0 q1, cell m' r n = Some mn /\ cell v' r n = Some vn /\ (0 < q0 < 1)%R /\ (0 < q1 < 1)%R /\
      map (fmul (adam_factor (Fin b0) (s_it s))) mn = floats (vscal q0 u) /\
      map (fmul (adam_factor (Fin b1) (s_it s))) vn = floats (vscal q1 (squares u)).
  Proof.
    intros r s m v D o s' m' v' n u H P HA HS Hr Hn HL HD HU Hu B0 B1. destruct (adam_uninterrupted_le _ _ _ _ _ H) as [HE _].
    assert (HA' : s_active s <> []) by (intros E; rewrite E in HA; destruct HA).
    set (j := length (D r n ++ drift_at s s' r n)).
    assert (HJ : 1 <= j < S (s_it s)).
    { unfold j. rewrite app_length.
      destruct (drift_at_char o s m v s' m' v' D r n HE P HA' HS Hn) as
        [(_ & Ed & _)|(? & i & xv & mv & vv & dv & _ & _ & _ & Ed & _)]; [congruence|]. rewrite Ed. cbn [length]. lia. }
    destruct (adam_corrected s m v D o s' m' v' r n u j HE P HA' HS Hr Hn (map_const_repeat _ _ _ HU) Hu) as (mn & vn & E1 & E2 & E3 & E4).
    assert (HQ : forall b, (0 < b < 1)%R -> (0 < (1 - b ^ j) / (1 - b ^ S (s_it s)) < 1)%R).
    { intros b Hb. pose proof (pow_lt_1 b (s_it s) ltac:(lra)) as H1.
      assert (H2 : (b ^ S (s_it s) < b ^ j)%R).
      { replace (S (s_it s)) with (j + S (s_it s - j)) by lia. rewrite Rdef_pow_add.
        pose proof (pow_lt_1 b (s_it s - j) ltac:(lra)). pose proof (pow_lt b j ltac:(lra)). nra. }
      assert (H3 : (b ^ j < 1)%R). { replace j with (S (j - 1)) by lia. apply pow_lt_1. lra. }
      split. apply Rdiv_lt_0_compat; lra. apply (Rmult_lt_reg_r (1 - b ^ S (s_it s))); [lra|]. unfold Rdiv. rewrite Rmult_assoc, Rinv_l by lra. lra. }
    exists mn, vn, ((1 - b0 ^ j) / (1 - b0 ^ S (s_it s)))%R, ((1 - b1 ^ j) / (1 - b1 ^ S (s_it s)))%R.
    split; auto. split; auto. split. { apply HQ. lra. } split. { apply HQ. lra. } auto.
  Qed.

  (** after reset() the correction is wrong *)
  Theorem adam_after_reset : forall s m v D o s' m' v' r n u j mn, adam_exec inner attr c (s, (m, v)) D ->
    D r n <> [] -> perms_valid o (reset s) -> s_active s <> [] -> vstep inner c o (reset s, (m, v)) = Ok (s', (m', v')) ->
    drift_at (reset s) s' r n <> [] ->
    r < s_M s -> n < s_N s -> D r n ++ drift_at (reset s) s' r n = repeat (floats u) j -> length u = d ->
    (exists a, In a u /\ a <> 0%R) -> (0 < b0)%R -> cell m' r n = Some mn ->
    map (fmul (adam_factor (Fin b0) (s_it (reset s)))) mn <> floats u.
  Proof.
    intros s m v D o s' m' v' r n u j mn H HD P HA HS HD' Hr Hn Hu1 Hu2 Hu3 Hb Hmn.
    assert (HX : adam_exec inner attr c (reset s, (m, v)) D) by (apply ax_reset; auto).
    destruct (reset_MN s) as (EM & EN & _).
    assert (Ea : s_active (reset s) = s_active s) by (destruct (reset_char s) as (ts & h & -> & _); auto).
    assert (Ei : s_it (reset s) = 0) by (destruct (reset_char s) as (ts & h & -> & _); auto).
    assert (HA0 : s_active (reset s) <> []) by (rewrite Ea; auto).
    assert (Hr0 : r < s_M (reset s)) by lia. assert (Hn0 : n < s_N (reset s)) by lia. intros E.
    apply (proj1 (adam_bias_iff _ _ _ _ _ _ _ _ r n u j mn HX P HA0 HS Hr0 Hn0 Hu1 Hu2 Hu3 Hb Hmn)) in E. rewrite Ei in E. subst j.
    apply (f_equal (@length _)) in Hu1. rewrite app_length, repeat_length in Hu1.
    destruct (D r n); [congruence|]. destruct (drift_at (reset s) s' r n); [congruence|cbn in Hu1; lia].
  Qed.
End AdamR.

Theorem adam_moments_spec : forall f k pp co bs partial cat ks save b0 b1 eps d s m v D r n us,
  let c := cbo_cfg f k pp co bs partial cat ks save in
  adam_exec (adam_inner np_sq np_quot (mkapar (Fin b0) (Fin b1) (Fin eps))) (adam_attr (floats (repeat 0%R d))) c (s, (m, v)) D ->
  r < s_M s -> n < s_N s ->
  D r n = map floats us -> (forall u, In u us -> length u = d) ->
  exists mr vr, cell m r n = Some (floats mr) /\ cell v r n = Some (floats vr) /\ length mr = d /\ length vr = d /\
    forall i, i < d -> coord i mr = exp_weighted b0 (map (coord i) us) /\
                       coord i vr = exp_weighted b1 (map (fun u => (coord i u * coord i u)%R) us).
Proof.
  intros f k pp co bs partial cat ks save b0 b1 eps d s m v D r n us c H Hr Hn HD Hu.
  destruct (adam_moments _ _ _ _ _ _ _ _ _ _ _ _ _ _ _ _ _ _ _ _ H Hr Hn HD Hu) as [E1 E2].
  do 2 eexists. split; [exact E1|]. split; [exact E2|]. split; [apply length_moment|]. split; [apply length_moment|].
  intros i Hi. rewrite !coord_moment by auto. split; auto. f_equal. rewrite map_map. apply map_ext. intros u. unfold squares. rewrite coord_mul; auto.
Qed.
