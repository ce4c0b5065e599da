(** * CBO with covariance noise: values, absorption, the covariance is positive semidefinite *)
From Coq Require Import List Arith Bool Reals Lra Lia.
From Verif Require Import Scalar Np NpFacts RVec RVecFacts Consensus ConsSpec ConsFacts PolarSpec PolarFacts Nd Cbo CovNoise CovFacts MatSqrt MatSpec MatFacts CovCbo CovCboSpec.
Import ListNotations.
Open Scope nat_scope.

Ltac idx := repeat match goal with |- context [if ?n =? 1 then 0 else ?i] => rewrite (ix n i) by (assumption || lia) end.

(** weights of run m *)
Definition run_w (alpha energy : nd (fl R)) (m N : nat) : list (fl R) :=
  softmax (map (fun j => fmul (fopp (get alpha [m; 0])) (get energy [m; j])) (seq 0 N)).

Lemma coeffs_value : forall alpha energy M N, shape alpha = [M; 1] -> shape energy = [M; N] ->
  exists co, cbo_coeffs alpha energy = Ok co /\ shape co = [M; N] /\
    forall m j, m < M -> j < N -> get co [m; j] = nth j (run_w alpha energy m N) NaN.
Proof.
  intros alpha energy M N Ha He. unfold cbo_coeffs. rewrite (lift2_ok _ _ _ _ _ _ [M; N]).
  2:{ cbn. rewrite Ha, He. unfold bshape; cbn; bsimp; reflexivity. }
  cbn [bind]. eexists. split; [reflexivity|]. split; [reflexivity|]. intros m j Hm Hj.
  cbn [softmax_last shape get last removelast app]. unfold run_w. f_equal. f_equal. apply map_ext_in. intros i Hi. apply in_seq in Hi.
  unfold bget. cbn [lift1 shape]. rewrite Ha, He. cbn [rev app proj_rev Nat.eqb]. idx. reflexivity.
Qed.

Lemma consensus_value : forall alpha energy x M N d, shape alpha = [M; 1] -> shape energy = [M; N] -> shape x = [M; N; d] ->
  exists c, nd_consensus alpha energy x = Ok c /\ shape c = [M; 1; d] /\
    forall m i, m < M -> i < d -> get c [m; 0; i] = fsum (map (fun j => fmul (get x [m; j; i]) (nth j (run_w alpha energy m N) NaN)) (seq 0 N)).
Proof.
  intros alpha energy x M N d Ha He Hx. unfold nd_consensus. destruct (coeffs_value alpha energy M N Ha He) as (co & -> & Hs & Hv). cbn [bind].
  rewrite (lift2_ok _ _ _ _ _ _ [M; N; d]).
  2:{ cbn. rewrite Hx, Hs. unfold bshape; cbn; bsimp; reflexivity. }
  cbn [bind]. unfold sum_axis1. cbn [shape]. eexists. split; [reflexivity|]. split; [reflexivity|].
  intros m i Hm Hi. cbn [get]. f_equal. apply map_ext_in. intros j Hj. apply in_seq in Hj. rewrite <- Hv by lia.
  unfold bget. cbn [newaxis_last shape]. rewrite Hx, Hs. cbn [rev app proj_rev Nat.eqb get newaxis_last removelast]. idx. reflexivity.
Qed.

Lemma drift_value : forall x c M N d, shape x = [M; N; d] -> shape c = [M; 1; d] ->
  exists dr, lift2 fsub x c = Ok dr /\ shape dr = [M; N; d] /\
    forall m n i, m < M -> n < N -> i < d -> get dr [m; n; i] = fsub (get x [m; n; i]) (get c [m; 0; i]).
Proof.
  intros x c M N d Hx Hc. rewrite (lift2_ok _ _ _ _ _ _ [M; N; d]).
  2:{ rewrite Hx, Hc. unfold bshape; cbn; bsimp; reflexivity. }
  eexists. split; [reflexivity|]. split; [reflexivity|]. intros m n i Hm Hn Hi. cbn [get]. unfold bget. rewrite Hx, Hc.
  cbn [rev app proj_rev Nat.eqb]. idx. reflexivity.
Qed.

(** the covariance *)
Theorem cov_value : forall alpha energy drift M N d, shape alpha = [M; 1] -> shape energy = [M; N] -> shape drift = [M; N; d] ->
  exists D, (co <- cbo_coeffs alpha energy ;; cov_of co drift) = Ok D /\ shape D = [M; d; d] /\
    forall m a b, m < M -> a < d -> b < d ->
      get D [m; a; b] = fsum (map (fun j => fmul (fmul (get drift [m; j; a]) (get drift [m; j; b])) (nth j (run_w alpha energy m N) NaN)) (seq 0 N)).
Proof.
  intros alpha energy drift M N d Ha He Hd. destruct (coeffs_value alpha energy M N Ha He) as (co & -> & Hs & Hv). cbn [bind].
  unfold cov_of. rewrite (outer_ok M N d drift Hd). cbn [bind].
  rewrite (lift2_ok _ _ _ _ _ _ [M; N; d; d]).
  2:{ cbn. rewrite Hs. unfold bshape; cbn; bsimp; reflexivity. }
  cbn [bind]. unfold sum_axis3. cbn [shape rev app]. eexists. split; [reflexivity|]. split; [reflexivity|].
  intros m a b Hm Ha1 Hb1. cbn [get rev app]. f_equal. apply map_ext_in. intros j Hj. apply in_seq in Hj. rewrite <- Hv by lia. f_equal.
  - unfold bget at 1. cbn [outer shape rev app proj_rev get]. idx. f_equal.
    + unfold bget. cbn [newaxis_last shape]. rewrite Hd. cbn [rev app proj_rev Nat.eqb get newaxis_last removelast]. idx. reflexivity.
    + unfold bget. cbn [newaxis_before_last shape]. rewrite Hd. cbn [rev app proj_rev Nat.eqb get newaxis_before_last removelast last]. idx. reflexivity.
  - unfold bget. cbn [newaxis_last shape]. rewrite Hs. cbn [rev app proj_rev Nat.eqb get removelast]. idx. reflexivity.
Qed.

(** factor of run m *)
Definition run_fac (smp : bool) (dt : fl R) (alpha : nd (fl R)) (m : nat) : fl R :=
  if smp then fsqrt (fdiv (fmul (Fin 2%R) dt) (fdiv (Fin 1%R) (fadd (Fin 1%R) (get alpha [m; 0]))))
  else fsqrt (fdiv (fmul (Fin 2%R) dt) (Fin 1%R)).

Theorem cov_step_value : forall ms smp lamda dt sigma alpha energy x drift z M N d,
  shape alpha = [M; 1] -> shape energy = [M; N] -> shape drift = [M; N; d] -> shape x = [M; N; d] ->
  exists D y, (co <- cbo_coeffs alpha energy ;; cov_of co drift) = Ok D /\
    cov_step ms smp lamda dt sigma alpha energy x drift z = Ok y /\ shape y = [M; N; d] /\
    forall m n i, m < M -> n < N -> i < d ->
      get y [m; n; i] = fadd (get x [m; n; i]) (fadd (fmul (fmul (fopp lamda) dt) (get drift [m; n; i]))
        (fmul sigma (fmul (run_fac smp dt alpha m) (fsum (map (fun q => fmul (ms d (fun a b => get D [m; a; b]) i q) (z [m; n; q])) (seq 0 d)))))).
Proof.
  intros ms smp lamda dt sigma alpha energy x drift z M N d Ha He Hd Hx.
  destruct (cov_value alpha energy drift M N d Ha He Hd) as (D & ED & HD & _). exists D. unfold cov_step.
  destruct (cbo_coeffs alpha energy) as [co|]; [|discriminate]. cbn [bind] in *. rewrite ED. cbn [bind].
  unfold cov_noise, apply_cov_sqrt. cbn [shape cov_sqrt]. rewrite HD, Hd. cbn [length Nat.eqb]. bsimp. cbn [bind].
  rewrite (lift2_ok _ _ _ _ _ _ [M; N; d]).
  2:{ rewrite (factor_shape smp dt alpha M Ha). destruct smp; unfold bshape; cbn; bsimp; reflexivity. }
  cbn [bind]. unfold move. rewrite (lift2_ok _ _ _ _ _ _ [M; N; d]).
  2:{ cbn. rewrite Hd. unfold bshape; cbn; bsimp; reflexivity. }
  cbn [bind]. unfold iadd. rewrite (lift2_ok _ _ _ _ _ _ [M; N; d]).
  2:{ cbn. rewrite Hx. unfold bshape; cbn; bsimp; reflexivity. }
  cbn [bind shape]. rewrite Hx. destruct (list_eq_dec Nat.eq_dec [M; N; d] [M; N; d]); [|congruence].
  eexists. split; [reflexivity|]. split; [reflexivity|]. split; [reflexivity|].
  intros m n i Hm Hn Hi. cbn [get]. unfold bget at 1. rewrite Hx. cbn [rev app proj_rev]. idx. f_equal.
  unfold bget at 1. cbn [shape rev app proj_rev get]. idx. f_equal.
  - unfold bget. cbn [lift1 shape]. rewrite Hd. cbn [rev app proj_rev get]. idx. reflexivity.
  - unfold bget at 1. cbn [lift1 shape rev app proj_rev get]. idx. f_equal.
    f_equal.
    + unfold bget, run_fac, cov_factor. destruct smp; cbn [newaxis_last lift1 scalar shape get].
      * rewrite Ha. cbn [rev app proj_rev Nat.eqb get removelast]. idx. reflexivity.
      * reflexivity.
    + unfold bget at 1. cbn [shape rev app proj_rev get]. idx. f_equal. apply map_ext_in. intros q Hq. apply in_seq in Hq.
      unfold bget. cbn [cov_sqrt shape]. rewrite HD. cbn [rev app proj_rev get cov_sqrt]. idx. cbn [shape rev app last]. rewrite HD. cbn [last]. idx. reflexivity.
Qed.

(** ** positive semidefinite *)
Open Scope R_scope.

Lemma run_w_convex : forall alpha energy m N a, get alpha [m; 0%nat] = Fin a ->
  (forall j, (j < N)%nat -> (exists y, get energy [m; j] = Fin y) \/ (get energy [m; j] = PInf /\ 0 < a)) ->
  (exists j y, (j < N)%nat /\ get energy [m; j] = Fin y) ->
  exists ws, run_w alpha energy m N = map Fin ws /\ length ws = N /\ convex ws.
Proof.
  intros alpha energy m N a Ha H1 (j0 & y0 & Hj0 & Hy0). unfold run_w.
  set (w := map (fun j => fmul (fopp (get alpha [m; 0%nat])) (get energy [m; j])) (seq 0 N)).
  assert (HS : soft_ok w).
  { split.
    - intros v Hv. apply in_map_iff in Hv. destruct Hv as (j & <- & Hj). apply in_seq in Hj. rewrite Ha. cbn [fopp].
      destruct (H1 j ltac:(lia)) as [(y & ->)|[-> Hp]]; [left; cbn; eauto|]. right.
      apply neg_inf; auto.
    - exists (- a * y0). apply in_map_iff. exists j0. rewrite Ha, Hy0. split; [reflexivity|apply in_seq; lia]. }
  rewrite (softmax_char w HS). eexists. split; [reflexivity|].
  assert (P := ew_sum_pos w HS). split; [rewrite map_length; unfold w; rewrite map_length, seq_length; auto|]. split.
  - intros q Hq. apply in_map_iff in Hq. destruct Hq as (v & <- & _). apply Rmult_le_pos; [apply ew_nonneg|]. left. apply Rinv_0_lt_compat. auto.
  - rewrite Rsum_map_div. field. lra.
Qed.

Lemma fsum_msum : forall N g h, (forall j, (j < N)%nat -> g j = Fin (h j)) -> fsum (map g (seq 0 N)) = Fin (msum N h).
Proof.
  intros N g h H. rewrite (map_ext_in g (fun j => Fin (h j))) by (intros j Hj; apply in_seq in Hj; apply H; lia).
  rewrite <- (map_map h Fin), fsum_fin. auto.
Qed.

Theorem cov_psd : forall alpha energy drift M N d m a, shape alpha = [M; 1%nat] -> shape energy = [M; N] -> shape drift = [M; N; d] -> (m < M)%nat ->
  get alpha [m; 0%nat] = Fin a ->
  (forall j, (j < N)%nat -> (exists y, get energy [m; j] = Fin y) \/ (get energy [m; j] = PInf /\ 0 < a)) ->
  (exists j y, (j < N)%nat /\ get energy [m; j] = Fin y) ->
  (forall j i, (j < N)%nat -> (i < d)%nat -> exists v, get drift [m; j; i] = Fin v) ->
  exists D C, (co <- cbo_coeffs alpha energy ;; cov_of co drift) = Ok D /\ mpsd d C /\
    forall i k, (i < d)%nat -> (k < d)%nat -> get D [m; i; k] = Fin (C i k).
Proof.
  intros alpha energy drift M N d m a Ha He Hd Hm Hal H1 H2 H3.
  destruct (cov_value alpha energy drift M N d Ha He Hd) as (D & ED & HD & HV).
  destruct (run_w_convex alpha energy m N a Hal H1 H2) as (ws & EW & LW & CW).
  set (dr := fun j i => match get drift [m; j; i] with Fin v => v | _ => 0 end).
  assert (Hdr : forall j i, (j < N)%nat -> (i < d)%nat -> get drift [m; j; i] = Fin (dr j i)).
  { intros j i Hj Hi. unfold dr. destruct (H3 j i Hj Hi) as (v & ->). auto. }
  set (C := fun i k => msum N (fun j => dr j i * dr j k * nth j ws 0)).
  exists D, C. split; [auto|]. split.
  - split.
    + intros i k _ _. unfold C. apply msum_ext. intros; ring.
    + intros v. unfold mquad, C.
      rewrite (msum_ext d _ (fun i => msum N (fun j => nth j ws 0 * (v i * dr j i) * msum d (fun k => v k * dr j k)))).
      2:{ intros i Hi. rewrite (msum_ext d _ (fun k => msum N (fun j => nth j ws 0 * (v i * dr j i) * (v k * dr j k)))).
          - rewrite msum_swap. apply msum_ext. intros. rewrite msum_scal. auto.
          - intros k Hk. rewrite <- msum_scal, <- msum_scal_r. apply msum_ext. intros; ring. }
      rewrite msum_swap. apply msum_nonneg. intros j Hj. rewrite msum_scal_r, msum_scal, Rmult_assoc.
      apply Rmult_le_pos; [|apply Rle_0_sqr]. destruct CW as [CW _]. apply CW. apply nth_In. lia.
  - intros i k Hi Hk. rewrite HV by auto. apply fsum_msum. intros j Hj. rewrite !Hdr by auto. rewrite EW.
    rewrite (nth_indep _ NaN (Fin 0)) by (rewrite map_length; lia). rewrite (map_nth Fin). cbn. reflexivity.
Qed.

(** ** absorption *)
Lemma run_fac_finite : forall smp dt alpha m a, 0 <= dt -> get alpha [m; 0%nat] = Fin a -> 0 <= a -> exists r, run_fac smp (Fin dt) alpha m = Fin r.
Proof.
  assert (Q : forall u, 0 <= u -> exists r, fsqrt (Fin u) = Fin r).
  { intros u Hu. unfold fsqrt. assert (Rltb u 0 = false) as -> by (apply Rltb_false; lra). eauto. }
  intros smp dt alpha m a Hdt Ha H0. unfold run_fac. rewrite Ha. destruct smp; cbn [fadd fmul]; unfold fdiv.
  - change (kadd 1 a) with (1 + a). change (kmul 2 dt) with (2 * dt). rewrite is0_false by lra. change (kdiv 1 (1 + a)) with (1 / (1 + a)).
    rewrite is0_false. 2:{ apply Rgt_not_eq. unfold Rdiv. rewrite Rmult_1_l. apply Rinv_0_lt_compat. lra. }
    apply Q. change (kdiv (2 * dt) (1 / (1 + a))) with (2 * dt / (1 / (1 + a))). replace (2 * dt / (1 / (1 + a))) with (2 * dt * (1 + a)) by (field; lra). nra.
  - change (kmul 2 dt) with (2 * dt). rewrite is0_false by lra. apply Q. change (kdiv (2 * dt) 1) with (2 * dt / 1). lra.
Qed.

Lemma map_coord : forall p : list R, map (fun j => Fin (coord j p)) (seq 0 (length p)) = floats p.
Proof.
  intros p. unfold floats. rewrite <- (map_map (fun j => coord j p) Fin). f_equal. unfold coord.
  induction p using rev_ind; [reflexivity|]. rewrite app_length. cbn [length]. rewrite Nat.add_1_r, seq_S, map_app. cbn [map Nat.add].
  rewrite app_nth2, Nat.sub_diag by lia. cbn. f_equal. transitivity (map (fun j => nth j p 0) (seq 0 (length p))); [|exact IHp]. apply map_ext_in. intros j Hj. apply in_seq in Hj. apply app_nth1. lia.
Qed.

Section Absorb.
  Variables (f : vec -> fl R) (eigh : nat -> mat -> (nat -> R) * mat) (smp : bool) (pp : fl R -> fl R) (M N : nat) (p : list R) (y0 : R).
  Let d := length p.
  Hypothesis HN : (1 <= N)%nat.
  Hypothesis Hf : f (floats p) = Fin y0.
  Hypothesis Hpp : forall i, (i < d)%nat -> pp (Fin (coord i p)) = Fin (coord i p).
  Hypothesis Heigh : forall A : mat, (forall i j, (i < d)%nat -> (j < d)%nat -> A i j = 0) -> eigen d A (fst (eigh d A)) (snd (eigh d A)).

  Lemma cov_step_absorbs : forall lamda dt sigma alpha x z m, 0 <= dt -> alpha_array M alpha -> (forall i, exists v, z i = Fin v) ->
    shape x = [M; N; d] -> (m < M)%nat -> run_at x m N p ->
    exists y, cov_cbo_step f (compute_mat_sqrt eigh) smp (Fin lamda) (Fin dt) (Fin sigma) alpha pp x z = Ok y /\ shape y = [M; N; d] /\ run_at y m N p.
  Proof.
    intros lamda dt sigma alpha x z m Hdt [Sa Ha] Hz Hx Hm HR. unfold cov_cbo_step.
    assert (Se : shape (energies f x) = [M; N]) by (unfold energies; cbn [shape]; rewrite Hx; reflexivity).
    assert (He : forall j, (j < N)%nat -> get (energies f x) [m; j] = Fin y0).
    { intros j Hj. unfold energies. cbn [get app]. rewrite Hx. cbn [last]. rewrite <- Hf, <- map_coord. f_equal. apply map_ext_in.
      intros i Hi. apply in_seq in Hi. apply HR; auto. unfold d in *. lia. }
    destruct (Ha m Hm) as (a & Ea & Pa).
    destruct (run_w_convex alpha (energies f x) m N a Ea) as (ws & EW & LW & CW).
    { intros j Hj. left. rewrite He by auto. eauto. } { exists 0%nat, y0. split; [lia|apply He; lia]. }
    destruct (consensus_value alpha (energies f x) x M N d Sa Se Hx) as (c & -> & Sc & Hc). cbn [bind].
    destruct (drift_value x c M N d Hx Sc) as (dr & -> & Sd & Hd). cbn [bind].
    assert (Cc : forall i, (i < d)%nat -> get c [m; 0%nat; i] = Fin (coord i p)).
    { intros i Hi. rewrite Hc by auto. rewrite (fsum_msum N _ (fun j => coord i p * nth j ws 0)).
      - f_equal. rewrite msum_scal. unfold msum. rewrite <- LW.
        replace (map (fun i0 => nth i0 ws 0) (seq 0 (length ws))) with ws by (symmetry; apply map_nth_seq). rewrite (proj2 CW). ring.
      - intros j Hj. rewrite HR by auto. rewrite EW, (nth_indep _ NaN (Fin 0)) by (rewrite map_length; lia). rewrite (map_nth Fin). reflexivity. }
    assert (Dd : forall n i, (n < N)%nat -> (i < d)%nat -> get dr [m; n; i] = Fin 0).
    { intros n i Hn Hi. rewrite Hd, HR, Cc by auto. cbn. f_equal. change (coord i p - coord i p = 0). ring. }
    destruct (cov_step_value (compute_mat_sqrt eigh) smp (Fin lamda) (Fin dt) (Fin sigma) alpha (energies f x) x dr z M N d Sa Se Sd Hx)
      as (D & y & ED & -> & Sy & Hy). cbn [bind].
    destruct (cov_value alpha (energies f x) dr M N d Sa Se Sd) as (D2 & ED2 & _ & HD). rewrite ED in ED2. injection ED2 as <-.
    assert (DZ : forall i j, (i < d)%nat -> (j < d)%nat -> get D [m; i; j] = Fin 0).
    { intros i j Hi Hj. rewrite HD by auto. rewrite (fsum_msum N _ (fun _ => 0)).
      - f_equal. apply msum_zero. auto.
      - intros k Hk. rewrite !Dd by auto. rewrite EW, (nth_indep _ NaN (Fin 0)) by (rewrite map_length; lia). rewrite (map_nth Fin). cbn. f_equal.
        change (0 * 0 * nth k ws 0 = 0). ring. }
    eexists. split; [reflexivity|]. split; [exact Sy|].
    intros n i Hn Hi. unfold lift1. cbn [get]. rewrite Hy by auto. rewrite HR, Dd by auto.
    destruct (run_fac_finite smp dt alpha m a Hdt Ea Pa) as (r & ->).
    rewrite (fsum_msum d _ (fun _ => 0)).
    - rewrite msum_zero by auto. cbn [fmul fadd fopp].
      replace (kadd (coord i p) (kadd (kmul (kmul (kopp lamda) dt) 0) (kmul sigma (kmul r 0)))) with (coord i p); [apply Hpp; auto|].
      change (coord i p = coord i p + (- lamda * dt * 0 + sigma * (r * 0))). ring.
    - intros q Hq. rewrite compute_mat_sqrt_zero; auto.
      + destruct (Hz [m; n; q]) as (v & ->). cbn. f_equal. change (0 * v = 0). ring.
      + apply Heigh. intros i' j' Hi' Hj'. unfold real_entries. rewrite DZ; auto.
  Qed.

  Theorem cov_absorbing : forall x m y, shape x = [M; N; d] -> (m < M)%nat -> run_at x m N p -> cov_steps f eigh smp pp M x y ->
    shape y = [M; N; d] /\ run_at y m N p.
  Proof.
    intros x m y Hx Hm HR HS. induction HS as [|y lamda dt sigma alpha z y' HS [IH1 IH2] Hdt HA Hz HE]; auto.
    destruct (cov_step_absorbs lamda dt sigma alpha y z m Hdt HA Hz IH1 Hm IH2) as (y2 & E2 & S2 & R2).
    rewrite HE in E2. injection E2 as <-. auto.
  Qed.
End Absorb.
