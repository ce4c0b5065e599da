(** * The step of AdamCBO: bounds, first step, momentum *)
From Coq Require Import String List Arith Bool Permutation Lia Reals Lra Psatz.
From Verif Require Import Scalar ScalarFacts RFacts Np NpFacts State Pdyn PdynFacts PdynStep PdynRun PdynOk Exec
  Memory MemSpec Variant VarSpec VarFacts VarMove RVec RVecFacts ConsSpec ConsFacts Consensus Cbo CboSpec CboFacts RegFacts AdamSpec AdamFacts AdamR AdamStepSpec AbsorbFacts HyperMoveFacts.
Import ListNotations.
Open Scope R_scope.

(** ** the two sums *)
Lemma exp_weighted_cs : forall b0 b1 l, 0 <= b0 < 1 -> 0 < b1 < 1 -> b0 * b0 < b1 ->
  (1 - b1) * (b1 - b0 * b0) * (exp_weighted b0 l * exp_weighted b0 l) <= b1 * ((1 - b0) * (1 - b0)) * exp_weighted b1 (map (fun a => a * a) l).
Proof.
  intros b0 b1 l H0 H1 H. induction l as [|a l IH] using rev_ind; [cbn; lra|].
  rewrite map_app. cbn [map]. rewrite !exp_weighted_snoc.
  set (m := exp_weighted b0 l) in *. set (v := exp_weighted b1 (map (fun a => a * a) l)) in *.
  set (q := (b1 - b0 * b0) * m - b0 * (1 - b0) * a).
  assert (Q : b1 * ((1 - b0) * (1 - b0)) * (b1 * v + (1 - b1) * (a * a)) - (1 - b1) * (b1 - b0 * b0) * ((b0 * m + (1 - b0) * a) * (b0 * m + (1 - b0) * a)) =
     b1 * (b1 * ((1 - b0) * (1 - b0)) * v - (1 - b1) * (b1 - b0 * b0) * (m * m)) + (1 - b1) * (q * q)) by (unfold q; ring).
  assert (0 <= b1 * (b1 * ((1 - b0) * (1 - b0)) * v - (1 - b1) * (b1 - b0 * b0) * (m * m))) by (apply Rmult_le_pos; lra).
  assert (0 <= (1 - b1) * (q * q)) by (apply Rmult_le_pos; [lra|apply Rle_0_sqr]). lra.
Qed.

Lemma one_minus_pow : forall b n, 0 <= b < 1 -> 1 - b <= 1 - b ^ S n < 1 \/ b = 0 /\ 1 - b ^ S n = 1.
Proof.
  intros b n H. destruct (Req_dec b 0) as [->|Hb]. { right. split; auto. rewrite pow_i by lia. ring. }
  left. assert (0 < b ^ n) by (apply pow_lt; lra). assert (b ^ n <= 1) by (rewrite <- (pow1 n); apply pow_incr; lra). cbn. nra.
Qed.

Lemma quotient_bound : forall b0 b1 eps it us i, 0 <= b0 < 1 -> 0 < b1 < 1 -> b0 * b0 < b1 -> 0 < eps ->
  Rabs (adam_quotient b0 b1 eps it us i) <= adam_gain b0 b1.
Proof.
  intros b0 b1 eps it us i H0 H1 H He. unfold adam_quotient.
  pose proof (exp_weighted_cs b0 b1 (map (coord i) us) H0 H1 H) as CS. rewrite map_map in CS.
  set (m := exp_weighted b0 (map (coord i) us)) in *. set (v := exp_weighted b1 (map (fun u => coord i u * coord i u) us)) in *.
  assert (Hv : 0 <= v). { apply exp_weighted_nonneg; [lra|]. intros a Ha. apply in_map_iff in Ha. destruct Ha as (u & <- & _). apply Rle_0_sqr. }
  assert (P0 : 1 - b0 <= 1 - b0 ^ S it) by (destruct (one_minus_pow b0 it H0) as [|[-> ->]]; lra).
  assert (P1 : 0 < 1 - b1 ^ S it <= 1) by (destruct (one_minus_pow b1 it ltac:(lra)) as [|[? _]]; lra).
  set (p0 := 1 - b0 ^ S it) in *. set (p1 := 1 - b1 ^ S it) in *.
  assert (Hs : sqrt v <= sqrt (v / p1)).
  { apply sqrt_le_1_alt. apply (Rmult_le_reg_r p1); [lra|]. unfold Rdiv. rewrite Rmult_assoc, Rinv_l by lra. nra. }
  assert (G : 0 < (1 - b1) * (b1 - b0 * b0)) by (apply Rmult_lt_0_compat; lra).
  assert (Hm : Rabs m <= (1 - b0) * (adam_gain b0 b1 * sqrt v)).
  { unfold adam_gain. rewrite <- sqrt_mult; [|apply Rlt_le, Rdiv_lt_0_compat; lra|auto].
    rewrite <- (sqrt_Rsqr_abs m). rewrite <- (sqrt_square (1 - b0)) at 1 by lra.
    rewrite <- sqrt_mult; [|apply Rle_0_sqr|apply Rmult_le_pos; [apply Rlt_le, Rdiv_lt_0_compat; lra|auto]].
    apply sqrt_le_1_alt. unfold Rsqr. apply (Rmult_le_reg_l _ _ _ G). 
    replace ((1 - b1) * (b1 - b0 * b0) * ((1 - b0) * (1 - b0) * (b1 / ((1 - b1) * (b1 - b0 * b0)) * v)))
      with (b1 * ((1 - b0) * (1 - b0)) * v) by (field; lra). exact CS. }
  pose proof (sqrt_pos v). assert (HG : 0 <= adam_gain b0 b1) by (unfold adam_gain; apply sqrt_pos).
  assert (Hd : 0 < sqrt (v / p1) + eps) by lra.
  unfold Rdiv at 1 2. rewrite !Rabs_mult, !Rabs_inv. rewrite (Rabs_right p0) by lra. rewrite (Rabs_right (sqrt (v / p1) + eps)) by lra.
  apply (Rmult_le_reg_r (sqrt (v / p1) + eps)); [lra|]. rewrite Rmult_assoc, Rinv_l, Rmult_1_r by lra.
  apply (Rmult_le_reg_r p0); [lra|]. rewrite Rmult_assoc, Rinv_l, Rmult_1_r by lra.
  apply (Rle_trans _ _ _ Hm).
  assert (adam_gain b0 b1 * sqrt v <= adam_gain b0 b1 * (sqrt (v / p1) + eps)) by (apply Rmult_le_compat_l; lra).
  assert (0 <= adam_gain b0 b1 * sqrt v) by (apply Rmult_le_pos; lra). nra.
Qed.

Lemma quotient_first : forall b0 b1 eps u i, 0 <= b0 < 1 -> 0 <= b1 < 1 -> 0 < eps ->
  adam_quotient b0 b1 eps 0 [u] i = coord i u / (Rabs (coord i u) + eps).
Proof.
  intros b0 b1 eps u i H0 H1 He. unfold adam_quotient, exp_weighted. cbn. rewrite !Rmult_1_r, !Rplus_0_r.
  replace ((1 - b0) * coord i u / (1 - b0)) with (coord i u) by (field; lra).
  replace ((1 - b1) * (coord i u * coord i u) / (1 - b1)) with (Rsqr (coord i u)) by (unfold Rsqr; field; lra).
  rewrite sqrt_Rsqr_abs. auto.
Qed.

Lemma exp_weighted_zero : forall b l, (forall a, In a l -> a = 0) -> exp_weighted b l = 0.
Proof.
  intros b l. induction l as [|a l IH] using rev_ind; intros H; [reflexivity|]. rewrite exp_weighted_snoc, IH by (intros; apply H, in_or_app; auto).
  rewrite (H a) by (apply in_or_app; cbn; auto). ring.
Qed.

Lemma quotient_zero : forall b0 b1 eps it us i, (forall u, In u us -> coord i u = 0) -> adam_quotient b0 b1 eps it us i = 0.
Proof.
  intros. unfold adam_quotient. rewrite exp_weighted_zero. unfold Rdiv. ring. intros a Ha. apply in_map_iff in Ha. destruct Ha as (u & <- & Hu). auto.
Qed.

Lemma quotient_nonzero : forall b0 b1 eps it us i, 0 <= b0 < 1 -> 0 < eps ->
  exp_weighted b0 (map (coord i) us) <> 0 -> adam_quotient b0 b1 eps it us i <> 0.
Proof.
  intros b0 b1 eps it us i H0 He H. unfold adam_quotient. pose proof (pow_lt_1 b0 it H0).
  pose proof (sqrt_pos (exp_weighted b1 (map (fun u => coord i u * coord i u) us) / (1 - b1 ^ S it))).
  unfold Rdiv. repeat apply Rmult_integral_contrapositive_currified; auto; apply Rinv_neq_0_compat; lra.
Qed.

(** ** the step *)
Section Step.
  Variables (f : vec -> fl R) (k : noise_model) (pp : vec -> vec) (co : corr R) (bs : nat) (partial cat : bool)
    (ks : list (crit R vec)) (save : bool).
  Let c := cbo_cfg f k pp co bs partial cat ks save.
  Variables (b0 b1 eps : R) (d : nat).
  Hypothesis H0 : 0 <= b0 < 1.
  Hypothesis H1 : 0 <= b1 < 1.
  Hypothesis He : 0 < eps.
  Notation par := (mkapar (Fin b0) (Fin b1) (Fin eps)).
  Notation inner := (adam_inner np_sq np_quot par).
  Notation attr := (adam_attr (floats (repeat 0%R d))).

  Lemma np_quot_floats : forall it us, (forall u, In u us -> length u = d) ->
    np_quot (Fin eps) (map (fmul (adam_factor (Fin b0) it)) (floats (moment b0 d us)))
      (map (fmul (adam_factor (Fin b1) it)) (floats (moment b1 d (map squares us)))) =
    floats (map (adam_quotient b0 b1 eps it us) (seq 0 d)).
  Proof.
    intros it us Hu. rewrite !factor_fin by auto. rewrite !floats_scal. unfold np_quot, floats, vscal, moment.
    rewrite !map_map, map2_map_same. apply map_ext_in. intros i Hi. cbn beta.
    pose proof (pow_lt_1 b0 it H0) as P0. pose proof (pow_lt_1 b1 it H1) as P1.
    assert (Es : map (coord i) (map squares us) = map (fun u => coord i u * coord i u) us).
    { rewrite map_map. apply map_ext_in. intros u Hu'. unfold squares. apply coord_mul; auto. }
    rewrite Es. set (v := exp_weighted b1 _). set (m := exp_weighted b0 _).
    assert (Hv : 0 <= v). { apply exp_weighted_nonneg; [lra|]. intros a Ha. apply in_map_iff in Ha. destruct Ha as (u & <- & _). apply Rle_0_sqr. }
    assert (0 <= 1 / (1 - b1 ^ S it) * v). { apply Rmult_le_pos; auto. apply Rlt_le, Rdiv_lt_0_compat; lra. }
    rewrite fsqrt_fin by auto. pose proof (sqrt_pos (1 / (1 - b1 ^ S it) * v)). cbn [fadd kadd KOps_R].
    rewrite fdiv_fin by lra. f_equal. unfold adam_quotient. fold m v. f_equal. field. lra.
    f_equal. f_equal. field. lra.
  Qed.

  (** one step of a particle of the batch *)
  Theorem adam_exact : forall la dt sg o s m v s' m' v' D r n x us u, adam_exec inner attr c (s, (m, v)) D -> perms_valid o s -> s_active s <> [] ->
    vstep inner c o (s, (m, v)) = Ok (s', (m', v')) -> (r < s_M s)%nat -> (n < s_N s)%nat -> parameters la dt sg s -> finite_draws d o ->
    cell (s_x s) r n = Some (floats x) -> length x = d -> drift_at s s' r n <> [] ->
    D r n ++ drift_at s s' r n = map floats (us ++ [u]) -> (forall w, In w (us ++ [u]) -> length w = d) ->
    exists j i z x1, nth_error (s_active s) j = Some r /\ nth_error (run_selp c o s r) i = Some n /\
      (forall i', (i < i')%nat -> nth_error (run_selp c o s r) i' <> Some n) /\ o_z o j i = floats z /\ length z = d /\
      length x1 = d /\ cell (s_x s') r n = Some (pp (floats x1)) /\
      forall a, (a < d)%nat -> coord a x1 = coord a x - (la * adam_quotient b0 b1 eps (s_it s) (us ++ [u]) a - sg * coord a (rnoise k dt u z)).
  Proof.
    intros la dt sg o s m v s' m' v' D r n x us u HE P HA HS Hr Hn (Pl & Pd & Ps & Pn) Hz Hx Lx Hd HD Hl.
    destruct (drift_at_char f k pp co bs partial cat ks save b0 b1 eps d o s m v s' m' v' D r n HE P HA HS Hn) as
        [(_ & Ed & _)|(j & i & xv & mv & vv & dv & Hj & Hi & Hi' & Ed & Hxv & Hmv & Hvv & _ & Qm & Qv & Q)]; [congruence|].
    rewrite Ed in HD. rewrite map_app in HD. cbn [map] in HD. apply app_inj_tail in HD. destruct HD as [HD ->].
    assert (Hl0 : forall w, In w us -> length w = d) by (intros; apply Hl, in_or_app; auto).
    assert (Lu : length u = d) by (apply Hl, in_or_app; cbn; auto).
    destruct (adam_moments f k pp co bs partial cat ks save b0 b1 eps d s m v D r n us HE Hr Hn HD Hl0) as [Em Ev].
    rewrite Hmv in Em. injection Em as ->. rewrite Hvv in Ev. injection Ev as ->. rewrite Hx in Hxv. injection Hxv as <-.
    destruct (Hz j i) as (z & Ez & Lz).
    rewrite np_sq_floats, !floats_scal, !floats_add, <- !moment_snoc in Q; auto; [|unfold squares; rewrite map2_length; lia].
    change [squares u] with (map squares [u]) in Q. rewrite <- map_app in Q.
    rewrite Pl, Pd, Ps, Ez, noise_floats, np_quot_floats, !floats_scal, !floats_sub in Q by auto.
    set (q := map (adam_quotient b0 b1 eps (s_it s) (us ++ [u])) (seq 0 d)) in Q.
    assert (Lq : length q = d) by (unfold q; rewrite map_length, seq_length; auto).
    assert (Ln : length (rnoise k dt u z) = d) by (apply length_rnoise; auto).
    exists j, i, z, (vsub x (vsub (vscal la q) (vscal sg (rnoise k dt u z)))).
    split; auto. split; auto. split; auto. split; auto. split; auto.
    split. { repeat apply length_vsub; rewrite ?length_vscal; auto. }
    split. { exact Q. }
    intros a Ha. rewrite !coord_vsub, !coord_vscal; try (rewrite ?length_vscal; congruence).
    2:{ rewrite Lx. symmetry. repeat apply length_vsub; rewrite ?length_vscal; auto. }
    do 3 f_equal. unfold coord at 1, q. apply nth_error_nth. rewrite nth_error_map, nth_error_seq. destruct (Nat.ltb_spec a d); [auto|lia].
  Qed.

  (** whatever drifts the particle has received, batches it has missed and resets there were: the noise-free displacement is bounded *)
  Theorem adam_displacement : forall la dt sg o s m v s' m' v' D r n x us u, 0 < b1 -> b0 * b0 < b1 ->
    adam_exec inner attr c (s, (m, v)) D -> perms_valid o s -> s_active s <> [] ->
    vstep inner c o (s, (m, v)) = Ok (s', (m', v')) -> (r < s_M s)%nat -> (n < s_N s)%nat -> parameters la dt sg s -> finite_draws d o ->
    cell (s_x s) r n = Some (floats x) -> length x = d -> drift_at s s' r n <> [] ->
    D r n ++ drift_at s s' r n = map floats (us ++ [u]) -> (forall w, In w (us ++ [u]) -> length w = d) ->
    exists j i z x1, nth_error (s_active s) j = Some r /\ nth_error (run_selp c o s r) i = Some n /\ o_z o j i = floats z /\
      length x1 = d /\ cell (s_x s') r n = Some (pp (floats x1)) /\
      forall a, (a < d)%nat -> Rabs (coord a x1 - coord a x - sg * coord a (rnoise k dt u z)) <= Rabs la * adam_gain b0 b1.
  Proof.
    intros la dt sg o s m v s' m' v' D r n x us u B1 B2 HE P HA HS Hr Hn Hp Hz Hx Lx Hd HD Hl.
    destruct (adam_exact la dt sg o s m v s' m' v' D r n x us u HE P HA HS Hr Hn Hp Hz Hx Lx Hd HD Hl) as (j & i & z & x1 & Q1 & Q2 & _ & Q3 & _ & Q4 & Q5 & Q6).
    exists j, i, z, x1. split; auto. split; auto. split; auto. split; auto. split; auto. intros a Ha. rewrite Q6 by auto.
    match goal with |- Rabs ?e <= _ => replace e with (- (la * adam_quotient b0 b1 eps (s_it s) (us ++ [u]) a)) by ring end.
    rewrite Rabs_Ropp, Rabs_mult. apply Rmult_le_compat_l; [apply Rabs_pos|]. apply quotient_bound; auto. lra.
  Qed.

  Lemma drift_is : forall o s m v s' m' v' D r n x xr xb al cs, adam_exec inner attr c (s, (m, v)) D -> perms_valid o s -> s_active s <> [] ->
    vstep inner c o (s, (m, v)) = Ok (s', (m', v')) -> (n < s_N s)%nat ->
    cell (s_x s) r n = Some (floats x) -> In r (s_active s) -> In n (run_selp c o s r) ->
    nth_error (s_x s) r = Some xr -> nth_error (s_alpha s) r = Some [al] -> takeM xr (run_sel c o s r) = Ok xb ->
    cc_default (map f xb) xb al = [floats cs] -> drift_at s s' r n = [floats (vsub x cs)].
  Proof.
    intros o s m v s' m' v' D r n x xr xb al cs HE P HA HS Hn Hx I1 I2 E1 E2 E3 E4.
    destruct (drift_at_char f k pp co bs partial cat ks save b0 b1 eps d o s m v s' m' v' D r n HE P HA HS Hn) as
        [([NI|NI] & _)|(j & i & xv & mv & vv & dv & Hj & Hi & Hi' & Ed & Hxv & Hmv & Hvv & (xr' & xb' & a' & cv & Q1 & Q2 & Q3 & Q4 & Q5) & _)]; try contradiction.
    rewrite Hx in Hxv. injection Hxv as <-. rewrite E1 in Q1. injection Q1 as <-. rewrite E2 in Q2. injection Q2 as <-.
    fold c in Q3. rewrite E3 in Q3. injection Q3 as <-. rewrite E4 in Q4. injection Q4 as <-. rewrite Ed, Q5, floats_sub. auto.
  Qed.

  (** the first step *)
  Theorem adam_first : forall la dt sg o s m v s' m' v' D r n x xr xb al cs, adam_exec inner attr c (s, (m, v)) D -> perms_valid o s ->
    vstep inner c o (s, (m, v)) = Ok (s', (m', v')) -> (r < s_M s)%nat -> (n < s_N s)%nat -> parameters la dt sg s -> finite_draws d o ->
    cell (s_x s) r n = Some (floats x) -> length x = d -> In r (s_active s) -> In n (run_selp c o s r) ->
    nth_error (s_x s) r = Some xr -> nth_error (s_alpha s) r = Some [al] -> takeM xr (run_sel c o s r) = Ok xb ->
    cc_default (map f xb) xb al = [floats cs] -> length cs = d -> s_it s = 0%nat -> D r n = [] ->
    exists j i z x1, nth_error (s_active s) j = Some r /\ nth_error (run_selp c o s r) i = Some n /\ o_z o j i = floats z /\
      length x1 = d /\ cell (s_x s') r n = Some (pp (floats x1)) /\
      forall a, (a < d)%nat -> coord a x1 = coord a x - la * ((coord a x - coord a cs) / (Rabs (coord a x - coord a cs) + eps)) + sg * coord a (rnoise k dt (vsub x cs) z).
  Proof.
    intros la dt sg o s m v s' m' v' D r n x xr xb al cs HE P HS Hr Hn Hp Hz Hx Lx I1 I2 E1 E2 E3 E4 Lc Hit HD.
    assert (HA : s_active s <> []) by (intros E; rewrite E in I1; destruct I1).
    pose proof (drift_is _ _ _ _ _ _ _ _ _ _ _ _ _ _ _ HE P HA HS Hn Hx I1 I2 E1 E2 E3 E4) as Ed.
    assert (Lu : length (vsub x cs) = d) by (apply length_vsub; auto).
    destruct (adam_exact la dt sg o s m v s' m' v' D r n x [] (vsub x cs) HE P HA HS Hr Hn Hp Hz Hx Lx) as (j & i & z & x1 & Q1 & Q2 & _ & Q3 & _ & Q4 & Q5 & Q6).
    { rewrite Ed. discriminate. } { rewrite Ed, HD. reflexivity. } { intros w [<-|[]]. auto. }
    exists j, i, z, x1. split; auto. split; auto. split; auto. split; auto. split; auto. intros a Ha. rewrite Q6 by auto.
    cbn [app]. rewrite Hit, quotient_first by auto. rewrite coord_vsub by congruence. ring.
  Qed.

  Lemma farther_iff : forall la u, 0 <= la -> (Rabs u < Rabs (u - la * (u / (Rabs u + eps))) <-> u <> 0 /\ Rabs u + eps < la / 2).
  Proof.
    intros la u Hla. pose proof (Rabs_pos u) as Hu.
    assert (Hk : 0 < Rabs u + eps) by lra. set (w := Rabs u + eps) in *.
    replace (u - la * (u / w)) with (u * (1 - la / w)) by (field; lra). rewrite Rabs_mult.
    split.
    - intros H. assert (Hn : u <> 0). { intros ->. rewrite Rabs_R0 in H. lra. } split; auto.
      apply Rabs_pos_lt in Hn. assert (K1 : 1 < Rabs (1 - la / w)) by nra.
      assert (0 <= la / w). { apply Rmult_le_pos; auto. apply Rlt_le, Rinv_0_lt_compat; auto. }
      assert (K2 : 2 < la / w). { unfold Rabs in K1. destruct (Rcase_abs (1 - la / w)); lra. }
      apply (Rmult_lt_compat_r w) in K2; auto. unfold Rdiv in K2. rewrite Rmult_assoc, Rinv_l in K2; lra.
    - intros [Hn H]. apply Rabs_pos_lt in Hn.
      assert (K2 : 2 < la / w). { apply (Rmult_lt_reg_r w); auto. unfold Rdiv. rewrite Rmult_assoc, Rinv_l; lra. }
      assert (1 < Rabs (1 - la / w)). { rewrite Rabs_left; lra. } nra.
  Qed.

  (** without noise: when the first step increases the distance to the consensus point *)
  Theorem adam_overshoot : forall la dt o s m v s' m' v' D r n x xr xb al cs, adam_exec inner attr c (s, (m, v)) D -> perms_valid o s ->
    vstep inner c o (s, (m, v)) = Ok (s', (m', v')) -> (r < s_M s)%nat -> (n < s_N s)%nat -> parameters la dt 0 s -> 0 <= la -> finite_draws d o ->
    cell (s_x s) r n = Some (floats x) -> length x = d -> In r (s_active s) -> In n (run_selp c o s r) ->
    nth_error (s_x s) r = Some xr -> nth_error (s_alpha s) r = Some [al] -> takeM xr (run_sel c o s r) = Ok xb ->
    cc_default (map f xb) xb al = [floats cs] -> length cs = d -> s_it s = 0%nat -> D r n = [] ->
    exists x1, length x1 = d /\ cell (s_x s') r n = Some (pp (floats x1)) /\
      forall a, (a < d)%nat -> (Rabs (coord a x - coord a cs) < Rabs (coord a x1 - coord a cs) <->
         coord a x <> coord a cs /\ Rabs (coord a x - coord a cs) < la / 2 - eps).
  Proof.
    intros la dt o s m v s' m' v' D r n x xr xb al cs HE P HS Hr Hn Hp Hla Hz Hx Lx I1 I2 E1 E2 E3 E4 Lc Hit HD.
    destruct (adam_first la dt 0 o s m v s' m' v' D r n x xr xb al cs HE P HS Hr Hn Hp Hz Hx Lx I1 I2 E1 E2 E3 E4 Lc Hit HD) as (j & i & z & x1 & _ & _ & _ & Q4 & Q5 & Q6).
    exists x1. split; auto. split; auto. intros a Ha. rewrite Q6 by auto.
    match goal with |- _ < Rabs ?e <-> _ => replace e with ((coord a x - coord a cs) - la * ((coord a x - coord a cs) / (Rabs (coord a x - coord a cs) + eps))) by ring end.
    rewrite farther_iff by auto. split; intros [K1 K2]; split; try lra; intros E; apply K1; lra.
  Qed.

  (** without noise dt plays no role *)
  Theorem adam_no_dt : forall la dt dt2 o s m v s1 m1 v1 s2 m2 v2 D r n x us, adam_exec inner attr c (s, (m, v)) D -> perms_valid o s -> s_active s <> [] ->
    vstep inner c o (s, (m, v)) = Ok (s1, (m1, v1)) -> vstep inner c o (set_dt (Fin dt2) s, (m, v)) = Ok (s2, (m2, v2)) ->
    (r < s_M s)%nat -> (n < s_N s)%nat -> parameters la dt 0 s -> 0 <= dt2 -> finite_draws d o ->
    cell (s_x s) r n = Some (floats x) -> length x = d ->
    D r n ++ drift_at s s1 r n = map floats us -> (forall w, In w us -> length w = d) ->
    cell (s_x s2) r n = cell (s_x s1) r n /\ cell m2 r n = cell m1 r n /\ cell v2 r n = cell v1 r n.
  Proof.
    intros la dt dt2 o s m v s1 m1 v1 s2 m2 v2 D r n x us HE P HA S1 S2 Hr Hn Hp Hd2 Hz Hx Lx HD Hl.
    destruct Hp as (Pl & Pd & Ps & Pn).
    assert (PC : params_changed s (set_dt (Fin dt2) s)).
    { exists (s_alpha s), (s_sigma s), (s_lamda s), (Fin dt2). split; [auto|]. destruct s; reflexivity. }
    pose proof (ax_params _ _ _ _ _ _ _ HE PC) as HE2.
    assert (P2 : perms_valid o (set_dt (Fin dt2) s)) by (intros m0 Hm0; sst; apply P; exact Hm0).
    destruct (drift_at_char f k pp co bs partial cat ks save b0 b1 eps d o s m v s1 m1 v1 D r n HE P HA S1 Hn) as
        [(NI & Ed & Em & Ev & Ex)|(j & i & xv & mv & vv & dv & Hj & Hi & Hi' & Ed & Hxv & Hmv & Hvv & (xr & xb & al & cv & Q1 & Q2 & Q3 & Q4 & Q5) & Qm & Qv & Q)];
    destruct (drift_at_char f k pp co bs partial cat ks save b0 b1 eps d o (set_dt (Fin dt2) s) m v s2 m2 v2 D r n HE2 P2) as
        [(NI' & Ed' & Em' & Ev' & Ex')|(j' & i' & xv' & mv' & vv' & dv' & Hj' & Hi2 & Hi'' & Ed' & Hxv' & Hmv' & Hvv' & (xr' & xb' & al' & cv' & Q1' & Q2' & Q3' & Q4' & Q5') & Qm' & Qv' & Q')];
      try (sst; auto; fail).
    - rewrite Em, Ev, Ex, Em', Ev', Ex'. sst. auto.
    - exfalso. sst. ssti Hj'. unfold run_selp, run_sel in *.
      destruct NI as [NI|NI]; apply NI; [eapply nth_error_In; eauto|]. eapply nth_error_In. exact Hi2.
    - exfalso. destruct NI' as [NI|NI]; apply NI; [eapply nth_error_In; eauto|]. eapply nth_error_In. exact Hi.
    - ssti Q1'. ssti Q2'. ssti Hxv'. rewrite Q1 in Q1'. injection Q1' as <-. rewrite Q2 in Q2'. injection Q2' as <-.
      assert (Exb : Ok xb = Ok xb') by exact (eq_trans (eq_sym Q3) Q3'). injection Exb as <-. rewrite Q4 in Q4'. injection Q4' as <-.
      rewrite Hxv in Hxv'. injection Hxv' as <-. subst dv'. rewrite <- Q5 in *. rewrite Hmv in Hmv'. injection Hmv' as <-. rewrite Hvv in Hvv'. injection Hvv' as <-.
      rewrite Qm, Qv, Qm', Qv'. split; auto.
      rewrite Ed in HD. destruct (app_floats_inv _ _ _ HD) as (us0 & u & -> & HD0 & Eu).
      destruct (adam_exact la dt 0 o s m v s1 m1 v1 D r n x us0 u HE P HA S1 Hr Hn) as (j1 & i1 & z1 & x1 & _ & _ & _ & _ & _ & L1 & C1 & F1); auto.
      { split; auto. } { rewrite Ed. discriminate. } { rewrite Ed. auto. }
      destruct (adam_exact la dt2 0 o (set_dt (Fin dt2) s) m v s2 m2 v2 D r n x us0 u HE2 P2) as (j2 & i2 & z2 & x2 & _ & _ & _ & _ & _ & L2 & C2 & F2); try (sst; auto; fail).
      { split; [|split; [|split]]; sst; auto. } { rewrite Ed'. discriminate. } { rewrite Ed'. auto. }
      rewrite C1, C2. do 2 f_equal. f_equal. apply (coord_ext _ _ d); auto. intros a Ha. rewrite F1, F2 by auto. sst. ring.
  Qed.

  Lemma noise_at_zero : forall dt z i, k <> NConst -> length z = d -> coord i (rnoise k dt (repeat 0 d) z) = 0.
  Proof.
    intros dt z i Hk Hz. destruct k; [congruence| |].
    - rewrite coord_rnoise_iso. replace (vnorm (repeat 0 d)) with 0; [ring|]. symmetry. apply vnorm_zeros.
    - rewrite coord_rnoise_aniso by (rewrite repeat_length; auto). rewrite coord_zeros. ring.
  Qed.

  (** a particle at the consensus point is moved by the drifts of the past … *)
  Theorem adam_momentum : forall la dt sg o s m v s' m' v' D r n x us xr xb al, adam_exec inner attr c (s, (m, v)) D -> perms_valid o s ->
    vstep inner c o (s, (m, v)) = Ok (s', (m', v')) -> (r < s_M s)%nat -> (n < s_N s)%nat -> parameters la dt sg s -> finite_draws d o ->
    cell (s_x s) r n = Some (floats x) -> length x = d -> In r (s_active s) -> In n (run_selp c o s r) ->
    nth_error (s_x s) r = Some xr -> nth_error (s_alpha s) r = Some [al] -> takeM xr (run_sel c o s r) = Ok xb ->
    cc_default (map f xb) xb al = [floats x] -> D r n = map floats us -> (forall w, In w us -> length w = d) -> k <> NConst ->
    exists x1, length x1 = d /\ cell (s_x s') r n = Some (pp (floats x1)) /\
      (forall a, (a < d)%nat -> la <> 0 -> b0 <> 0 -> (coord a x1 <> coord a x <-> exp_weighted b0 (map (coord a) us) <> 0)).
  Proof.
    intros la dt sg o s m v s' m' v' D r n x us xr xb al HE P HS Hr Hn Hp Hz Hx Lx I1 I2 E1 E2 E3 E4 HD Hl Hk.
    assert (HA : s_active s <> []) by (intros E; rewrite E in I1; destruct I1).
    pose proof (drift_is _ _ _ _ _ _ _ _ _ _ _ _ _ _ _ HE P HA HS Hn Hx I1 I2 E1 E2 E3 E4) as Ed.
    assert (Ez : vsub x x = repeat 0 d).
    { apply (coord_ext _ _ d). apply length_vsub; auto. apply repeat_length. intros i Hi. rewrite coord_vsub_self, coord_zeros. auto. }
    rewrite Ez in Ed.
    assert (Hl' : forall w, In w (us ++ [repeat 0 d]) -> length w = d).
    { intros w Hw. apply in_app_or in Hw. destruct Hw as [Hw|[<-|[]]]; auto. apply repeat_length. }
    destruct (adam_exact la dt sg o s m v s' m' v' D r n x us (repeat 0 d) HE P HA HS Hr Hn Hp Hz Hx Lx) as (j & i & z & x1 & _ & _ & _ & Q3 & Q3' & Q4 & Q5 & Q6).
    { rewrite Ed. discriminate. } { rewrite Ed, HD, map_app. reflexivity. } { exact Hl'. }
    exists x1. split; auto. split; auto. intros a Ha Nl Nb. rewrite Q6, noise_at_zero by auto.
    assert (Em : exp_weighted b0 (map (coord a) (us ++ [repeat 0 d])) = b0 * exp_weighted b0 (map (coord a) us)).
    { rewrite map_app. cbn [map]. rewrite exp_weighted_snoc, coord_zeros. ring. }
    split.
    - intros HN E. apply HN. unfold adam_quotient. rewrite Em, E. unfold Rdiv. ring.
    - intros HN E. apply (quotient_nonzero b0 b1 eps (s_it s) (us ++ [repeat 0 d]) a H0 He).
      + rewrite Em. apply Rmult_integral_contrapositive_currified; auto.
      + apply (Rmult_eq_reg_l la); auto. lra.
  Qed.
End Step.
