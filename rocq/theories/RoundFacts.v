(** * Error analysis of the weighted mean *)
From Coq Require Import List Arith Bool Reals Lia Lra Psatz.
From Verif Require Import Np RVec RVecFacts Rounding RoundSpec.
Import ListNotations.
Open Scope R_scope.

Lemma exp_ge : forall x, 1 + x <= exp x.
Proof. intros x. destruct (Req_dec x 0) as [->|N]; [rewrite exp_0; lra|]. left. apply exp_ineq1; auto. Qed.
Lemma exp_le_inv : forall x, x < 1 -> exp x <= / (1 - x).
Proof.
  intros x H. pose proof (exp_ge (- x)). rewrite exp_Ropp in H0. pose proof (exp_pos x). 
  apply (Rmult_le_reg_r (1 - x)); [lra|]. rewrite Rinv_l by lra.
  apply (Rmult_le_compat_l (exp x)) in H0; [|lra]. rewrite Rinv_r in H0 by lra. lra.
Qed.
Lemma ln_le : forall x y, 0 < x -> x <= y -> ln x <= ln y.
Proof. intros x y H [L| ->]; [left; apply ln_increasing; auto|lra]. Qed.
Lemma exp_small : forall x, Rabs x <= / 2 -> Rabs (exp x - 1) <= 2 * Rabs x.
Proof.
  intros x H. assert (- / 2 <= x <= / 2) by (unfold Rabs in H; destruct (Rcase_abs x); lra).
  pose proof (exp_ge x). pose proof (exp_le_inv x ltac:(lra)).
  assert (/ (1 - x) <= 1 + 2 * Rabs x).
  { apply (Rmult_le_reg_r (1 - x)); [lra|]. rewrite Rinv_l by lra. unfold Rabs; destruct (Rcase_abs x); nra. }
  unfold Rabs in *. destruct (Rcase_abs x), (Rcase_abs (exp x - 1)); lra.
Qed.
Lemma ln_small : forall z, Rabs z <= / 2 -> Rabs (ln (1 + z)) <= 2 * Rabs z.
Proof.
  intros z H. assert (HZ : - / 2 <= z <= / 2) by (unfold Rabs in H; destruct (Rcase_abs z); lra).
  assert (P : 0 < 1 + z) by lra.
  assert (U : ln (1 + z) <= z). { rewrite <- (ln_exp z) at 2. apply ln_le; auto. apply exp_ge. }
  assert (LO : - (2 * Rabs z) <= ln (1 + z)).
  { rewrite <- (ln_exp (- (2 * Rabs z))). apply ln_le; [apply exp_pos|]. rewrite exp_Ropp.
    pose proof (exp_ge (2 * Rabs z)). apply Rle_trans with (/ (1 + 2 * Rabs z)).
    - apply Rinv_le_contravar; auto. pose proof (Rabs_pos z). lra.
    - apply (Rmult_le_reg_r (1 + 2 * Rabs z)); [pose proof (Rabs_pos z); lra|]. rewrite Rinv_l by (pose proof (Rabs_pos z); lra). unfold Rabs in *; destruct (Rcase_abs z); nra. }
  pose proof (Rabs_pos z). unfold Rabs at 1. destruct (Rcase_abs (ln (1 + z))); [lra|]. unfold Rabs; destruct (Rcase_abs z); lra.
Qed.
Lemma pow_linear : forall n u, 0 <= u -> INR n * u <= / 2 -> (1 + u) ^ n <= 1 + 2 * (INR n * u).
Proof.
  intros n u Hu. induction n as [|n IH]; intros H; [cbn; lra|]. rewrite S_INR in *. pose proof (pos_INR n). assert (INR n * u <= / 2) by nra. specialize (IH H1). cbn [pow]. 
  apply Rle_trans with ((1 + u) * (1 + 2 * (INR n * u))); [apply Rmult_le_compat_l; lra|]. nra.
Qed.

(** ** rounded sums *)
Lemma Rsum_abs1 : forall l, Rabs (Rsum l) <= Rsum (map Rabs l).
Proof. induction l as [|a l IH]; cbn; [rewrite Rabs_R0; lra|]. eapply Rle_trans; [apply Rabs_triang|]. unfold Rsum in *. lra. Qed.
Lemma Rsum_abs_pos : forall l, 0 <= Rsum (map Rabs l).
Proof. intros. pose proof (Rsum_abs1 l). pose proof (Rabs_pos (Rsum l)). lra. Qed.
Lemma rounded_sum_err : forall rnd u eta, 0 <= u -> 0 <= eta -> (forall x, Rabs (rnd x - x) <= u * Rabs x + eta) -> forall l v, rounded_sum rnd l v ->
  (1 <= length l)%nat /\ Rabs (v - Rsum l) <= ((1 + u) ^ (length l - 1) - 1) * Rsum (map Rabs l) + (1 + u) ^ (length l - 1) * (INR (length l) - 1) * eta.
Proof.
  intros rnd u eta Hu He HR l v H. induction H as [a|l k a b H1 [N1 IH1] H2 [N2 IH2]|l k v H [N IH]].
  - cbn. split; [lia|]. unfold Rminus. rewrite Rplus_0_r, Rplus_opp_r, Rabs_R0. lra.
  - split; [rewrite app_length; lia|]. rewrite app_length, map_app, !Rsum_app.
    replace (length l + length k - 1)%nat with (length l - 1 + (length k - 1) + 1)%nat by lia. rewrite !pow_add, pow_1, plus_INR.
    pose proof (pow_R1_Rle (1 + u) (length l - 1) ltac:(lra)) as P1. pose proof (pow_R1_Rle (1 + u) (length k - 1) ltac:(lra)) as P2.
    set (U := (1 + u) ^ (length l - 1)) in *. set (W := (1 + u) ^ (length k - 1)) in *.
    pose proof (le_INR 1 (length l) N1) as I1. pose proof (le_INR 1 (length k) N2) as I2. cbn [INR] in I1, I2. set (n := INR (length l)) in *. set (m := INR (length k)) in *.
    pose proof (Rsum_abs1 l) as A1. pose proof (Rsum_abs1 k) as A2. pose proof (Rsum_abs_pos l) as Q1. pose proof (Rsum_abs_pos k) as Q2.
    set (A := Rsum (map Rabs l)) in *. set (B := Rsum (map Rabs k)) in *. set (x := Rsum l) in *. set (y := Rsum k) in *.
    assert (T : Rabs (a + b - (x + y)) <= (U - 1) * A + U * (n - 1) * eta + ((W - 1) * B + W * (m - 1) * eta)).
    { replace (a + b - (x + y)) with ((a - x) + (b - y)) by ring. eapply Rle_trans; [apply Rabs_triang|]. lra. }
    assert (T2 : Rabs (a + b) <= A + B + ((U - 1) * A + U * (n - 1) * eta + ((W - 1) * B + W * (m - 1) * eta))).
    { replace (a + b) with ((a + b - (x + y)) + (x + y)) by ring. eapply Rle_trans; [apply Rabs_triang|]. pose proof (Rabs_triang x y). lra. }
    assert (T3 : Rabs (rnd (a + b) - (x + y)) <= u * Rabs (a + b) + eta + Rabs (a + b - (x + y))).
    { replace (rnd (a + b) - (x + y)) with ((rnd (a + b) - (a + b)) + (a + b - (x + y))) by ring. eapply Rle_trans; [apply Rabs_triang|]. specialize (HR (a + b)). lra. }
    apply (Rmult_le_compat_l u) in T2; auto.
    assert (G1 : 0 <= (U * W - U) * A) by (apply Rmult_le_pos; auto; nra). assert (G2 : 0 <= (U * W - W) * B) by (apply Rmult_le_pos; auto; nra).
    assert (G3 : 0 <= (U * W - U) * ((n - 1) * eta)) by (apply Rmult_le_pos; [nra|apply Rmult_le_pos; lra]).
    assert (G4 : 0 <= (U * W - W) * ((m - 1) * eta)) by (apply Rmult_le_pos; [nra|apply Rmult_le_pos; lra]).
    assert (UW : 1 <= U * W) by nra. assert (G5 : 0 <= (U * W * (1 + u) - 1) * eta) by (apply Rmult_le_pos; [nra|lra]).
    apply (Rmult_le_compat_l (1 + u)) in G1; [|lra]. apply (Rmult_le_compat_l (1 + u)) in G2; [|lra].
    apply (Rmult_le_compat_l (1 + u)) in G3; [|lra]. apply (Rmult_le_compat_l (1 + u)) in G4; [|lra].
    lra.
  - rewrite !app_length in *. rewrite map_app in *. rewrite !Rsum_app in *. rewrite (Nat.add_comm (length k)). split; auto.
    rewrite (Rplus_comm (Rsum k)), (Rplus_comm (Rsum (map Rabs k))). auto.
Qed.

(** exp of a perturbed argument that is not large *)
Lemma exp_perturbed : forall t d k, 0 <= k <= / 16 -> t <= / 2 -> Rabs d <= k * (Rabs t + 1) -> Rabs (exp (t + d) - exp t) <= 3 * k.
Proof.
  intros t d k Hk Ht Hd. rewrite exp_plus. replace (exp t * exp d - exp t) with (exp t * (exp d - 1)) by ring. rewrite Rabs_mult, (Rabs_right (exp t)) by (left; apply exp_pos).
  set (y := Rabs t) in *. assert (Hy : 0 <= y) by apply Rabs_pos.
  assert (E1 : Rabs (exp d - 1) <= Rabs d * exp (Rabs d)).
  { pose proof (exp_ge d). pose proof (exp_ge (- d)). pose proof (exp_pos d). unfold Rabs. destruct (Rcase_abs d) as [L|L].
    - assert (exp d <= 1) by (rewrite <- exp_0; left; apply exp_increasing; lra). destruct (Rcase_abs (exp d - 1)); [|nra]. pose proof (exp_pos (- d)). assert (1 <= exp (- d)) by (rewrite <- exp_0; left; apply exp_increasing; lra). nra.
    - destruct (Rcase_abs (exp d - 1)); [lra|]. rewrite exp_Ropp in H0. apply (Rmult_le_compat_l (exp d)) in H0; [|lra]. rewrite Rinv_r in H0 by lra. lra. }
  assert (D1 : exp (Rabs d) <= exp (k * (y + 1))) by (destruct Hd as [L|L]; [left; apply exp_increasing; auto|rewrite L; lra]).
  apply Rle_trans with (exp t * (k * (y + 1) * exp (k * (y + 1)))).
  { apply Rmult_le_compat_l; [left; apply exp_pos|]. eapply Rle_trans; [exact E1|]. apply Rmult_le_compat; auto using Rabs_pos. left; apply exp_pos. }
  replace (exp t * (k * (y + 1) * exp (k * (y + 1)))) with (k * ((y + 1) * (exp t * exp (k * (y + 1))))) by ring. rewrite <- exp_plus, (Rmult_comm 3 k). apply Rmult_le_compat_l; [lra|].
  unfold y, Rabs in *. destruct (Rcase_abs t) as [L|L].
  - replace (t + k * (- t + 1)) with (k + - ((1 - k) * - t)) by ring. rewrite exp_plus, exp_Ropp. set (z := (1 - k) * - t).
    assert (Z0 : 0 <= z) by (unfold z; nra). pose proof (exp_ge z). pose proof (exp_le_inv k ltac:(lra)) as EK. pose proof (exp_pos k).
    assert (K2 : / (1 - k) <= 16 / 15). { apply (Rmult_le_reg_r (1 - k)); [lra|]. rewrite Rinv_l; lra. }
    assert (EZ : (- t + 1) * / exp z <= 16 / 15).
    { apply (Rmult_le_reg_r (exp z)); [lra|]. rewrite Rmult_assoc, Rinv_l by lra. unfold z in *. nra. }
    assert (0 <= (- t + 1) * / exp z) by (apply Rmult_le_pos; [lra|left; apply Rinv_0_lt_compat; lra]).
    replace ((- t + 1) * (exp k * / exp z)) with (exp k * ((- t + 1) * / exp z)) by ring.
    apply Rle_trans with (16 / 15 * (16 / 15)); [apply Rmult_le_compat; lra|lra].
  - assert (X : t + k * (t + 1) <= 19 / 32) by nra. pose proof (exp_ge (t + k * (t + 1))).
    (* exp(19/32) < 1.82, times 1.5 *)
    assert (EX : exp (t + k * (t + 1)) <= 2).
    { apply Rle_trans with (exp (19 / 128 + 19 / 128 + (19 / 128 + 19 / 128))). { destruct X as [X|X]; [left; apply exp_increasing; lra|right; f_equal; lra]. }
      rewrite !exp_plus. pose proof (exp_le_inv (19 / 128) ltac:(lra)) as Q. assert (Q2 : / (1 - 19 / 128) = 128 / 109) by field. rewrite Q2 in Q. pose proof (exp_pos (19 / 128)).
      assert (Q4 : exp (19 / 128) * exp (19 / 128) <= 128 / 109 * (128 / 109)) by (apply Rmult_le_compat; lra). assert (0 <= exp (19 / 128) * exp (19 / 128)) by nra.
      apply Rle_trans with (128 / 109 * (128 / 109) * (128 / 109 * (128 / 109))); [apply Rmult_le_compat; lra|lra]. }
    nra.
Qed.

(** ** the maximum of a row *)
Lemma fold_max : forall l d, (forall w, In w l -> w <= fold_right Rmax d l) /\ d <= fold_right Rmax d l /\ (fold_right Rmax d l = d \/ In (fold_right Rmax d l) l).
Proof.
  induction l as [|a l IH]; intros d; cbn [fold_right]; [split; [intros w []|]; split; [lra|auto]|]. destruct (IH d) as (H1 & H2 & H3).
  split; [|split]. - intros w [<-|H]; [apply Rmax_l|]. eapply Rle_trans; [apply H1; auto|apply Rmax_r]. - eapply Rle_trans; [exact H2|apply Rmax_r].
  - unfold Rmax at 1 3. destruct (Rle_dec a (fold_right Rmax d l)); [destruct H3; cbn; auto|right; left; auto].
Qed.
Lemma row_max_spec : forall l, l <> [] -> In (row_max l) l /\ forall w, In w l -> w <= row_max l.
Proof.
  intros [|a l] H; [congruence|]. unfold row_max. destruct (fold_max (a :: l) (hd 0 (a :: l))) as (H1 & H2 & H3). split; auto. destruct H3 as [-> |]; auto. left; auto.
Qed.
Lemma row_min_spec : forall l, l <> [] -> In (row_min l) l /\ forall w, In w l -> row_min l <= w.
Proof.
  assert (K : forall l d, (forall w, In w l -> fold_right Rmin d l <= w) /\ fold_right Rmin d l <= d /\ (fold_right Rmin d l = d \/ In (fold_right Rmin d l) l)).
  { induction l as [|a l IH]; intros d; cbn [fold_right]; [split; [intros w []|]; split; [lra|auto]|]. destruct (IH d) as (H1 & H2 & H3).
    split; [|split]. - intros w [<-|H]; [apply Rmin_l|]. eapply Rle_trans; [apply Rmin_r|apply H1; auto]. - eapply Rle_trans; [apply Rmin_r|exact H2].
    - unfold Rmin at 1 3. destruct (Rle_dec a (fold_right Rmin d l)); [right; left; auto|destruct H3; cbn; auto]. }
  intros [|a l] H; [congruence|]. unfold row_min. destruct (K (a :: l) (hd 0 (a :: l))) as (H1 & H2 & H3). split; auto. destruct H3 as [-> |]; auto. left; auto.
Qed.

Section Err.
  Variables (u v eta : R) (rnd Exp Log : R -> R) (sum : list R -> R).
  Hypothesis AR : arithmetic u v eta rnd Exp Log sum.
  Let g := u + v.

  Lemma rnd_err1 : forall x, Rabs (rnd x - x) <= u * (Rabs x + 1).
  Proof. intros x. pose proof (ar_rnd _ _ _ _ _ _ _ AR x). pose proof (ar_eta _ _ _ _ _ _ _ AR). lra. Qed.
  (** exponential of a rounded argument *)
  Lemma exp_err : forall t, t <= / 2 -> g <= / 16 -> Rabs (Exp (rnd t) - exp t) <= 4 * g.
  Proof.
    intros t Ht Hg. destruct AR as [U V E R1 X _ _ _]. unfold g in *.
    pose proof (rnd_err1 t) as D. replace (rnd t) with (t + (rnd t - t)) in * by ring. set (d := rnd t - t) in *. replace (t + d - t) with d in D by ring.
    pose proof (exp_perturbed t d u ltac:(lra) Ht D) as P. specialize (X (t + d)).
    assert (T2 : exp t <= 2). { apply Rle_trans with (exp (/ 2)). { destruct Ht as [L|L]; [left; apply exp_increasing; auto|rewrite L; lra]. } pose proof (exp_le_inv (/ 2) ltac:(lra)). lra. }
    assert (exp (t + d) <= exp t + 3 * u). { unfold Rabs in P. destruct (Rcase_abs (exp (t + d) - exp t)); lra. }
    assert (U1 : exp (t + d) * v <= (2 + 3 * / 16) * v) by (apply Rmult_le_compat_r; lra).
    replace (Exp (t + d) - exp t) with ((Exp (t + d) - exp (t + d)) + (exp (t + d) - exp t)) by ring. eapply Rle_trans; [apply Rabs_triang|]. lra.
  Qed.

  Lemma sum_close : forall A (f h : A -> R) l c, (forall x, In x l -> Rabs (f x - h x) <= c) -> Rabs (Rsum (map f l) - Rsum (map h l)) <= INR (length l) * c.
  Proof.
    intros A f h l c H. rewrite <- Rsum_map_minus. eapply Rle_trans; [apply Rsum_abs|]. rewrite <- Rsum_map_const. apply Rsum_map_le. auto.
  Qed.
  Lemma sum_err : forall l, l <> [] -> INR (length l) * u <= / 2 -> Rabs (sum l - Rsum l) <= 2 * (INR (length l) * u) * Rsum (map Rabs l) + 2 * INR (length l) * eta.
  Proof.
    intros l Hl Hu. destruct AR as [U V E R1 _ _ _ S0]. destruct (rounded_sum_err rnd u eta U (proj1 E) R1 l _ (S0 l Hl)) as [N H].
    pose proof (pow_linear (length l - 1) u U) as P. pose proof (le_INR 1 _ N) as N1. cbn [INR] in N1. rewrite minus_INR in P by auto. cbn [INR] in P.
    assert (Q : (INR (length l) - 1) * u <= / 2) by nra. specialize (P Q). pose proof (Rsum_abs_pos l) as A0.
    set (W := (1 + u) ^ (length l - 1)) in *. assert (W1 : W - 1 <= 2 * (INR (length l) * u)) by nra. assert (W2 : W <= 2) by nra.
    apply (Rmult_le_compat_r (Rsum (map Rabs l))) in W1; auto.
    assert (W3 : W * ((INR (length l) - 1) * eta) <= 2 * ((INR (length l) - 1) * eta)) by (apply Rmult_le_compat_r; [apply Rmult_le_pos; lra|lra]). lra.
  Qed.

  Variable ws : list R.
  Hypothesis Hne : ws <> [].
  Let m := row_max ws.
  Let N := INR (length ws).
  Let q := N * g.
  Hypotheses (Hq : q <= / 128) (Hm : u * Rabs m <= / 8).
  Let S0 := Rsum (map (fun w => exp (w - m)) ws).

  Lemma N_ge1 : 1 <= N.
  Proof. unfold N. destruct ws; [congruence|]. cbn [length]. rewrite S_INR. pose proof (pos_INR (length l)). lra. Qed.
  Lemma g_nonneg : 0 <= g. Proof. unfold g. destruct AR. lra. Qed.
  Lemma g_le_q : g <= q. Proof. unfold q. pose proof N_ge1. pose proof g_nonneg. nra. Qed.
  Lemma S0_range : 1 <= S0 <= N.
  Proof.
    destruct (row_max_spec ws Hne) as [H1 H2]. fold m in H1, H2. split.
    - unfold S0. assert (K : forall l, In m l -> 1 <= Rsum (map (fun w => exp (w - m)) l)).
      { induction l as [|a l IH]; intros [].
        - subst a. cbn [map]. rewrite Rsum_cons. replace (m - m) with 0 by ring. rewrite exp_0. assert (0 <= Rsum (map (fun w => exp (w - m)) l)) by (apply Rsum_map_nonneg; intros; left; apply exp_pos). lra.
        - cbn [map]. rewrite Rsum_cons. specialize (IH H). pose proof (exp_pos (a - m)). lra. }
      auto.
    - unfold S0, N. rewrite <- (Rmult_1_r (INR (length ws))), <- Rsum_map_const. apply Rsum_map_le. intros w Hw. specialize (H2 w Hw). rewrite <- exp_0. destruct H2 as [L|L]; [left; apply exp_increasing; lra|right; f_equal; lra].
  Qed.
  Let s := sum (map (fun w => Exp (rnd (w - m))) ws).
  Lemma s_err : Rabs (s - S0) <= 9 * q * S0.
  Proof.
    pose proof N_ge1 as N1. pose proof g_nonneg as G0. pose proof S0_range as [S1 S2]. pose proof g_le_q as GQ. destruct (row_max_spec ws Hne) as [_ H2]. fold m in H2.
    set (al := map (fun w => Exp (rnd (w - m))) ws).
    assert (LA : INR (length al) = N) by (unfold al; rewrite map_length; auto).
    assert (U0 : 0 <= u /\ 0 <= v /\ 0 <= eta <= u) by (destruct AR; auto).
    assert (A1 : Rabs (Rsum al - S0) <= N * (4 * g)).
    { unfold al, S0, N. apply sum_close. intros w Hw. apply exp_err; [specialize (H2 w Hw); lra|lra]. }
    assert (A2 : Rsum (map Rabs al) = Rsum al).
    { unfold al. rewrite map_map. apply Rsum_map_ext. intros w Hw. apply Rabs_right, Rle_ge, (ar_exp0 _ _ _ _ _ _ _ AR). }
    assert (NU : N * u <= q) by (unfold q, g; nra). assert (NE : N * eta <= N * u) by nra.
    assert (AN : al <> []) by (unfold al; destruct ws; [congruence|discriminate]).
    pose proof (sum_err al AN ltac:(rewrite LA; lra)) as A3. rewrite LA, A2 in A3.
    assert (A4 : Rsum al <= S0 + 4 * q). { unfold q. unfold Rabs in A1. destruct (Rcase_abs (Rsum al - S0)); lra. }
    assert (A5 : 2 * (N * u) * Rsum al <= 2 * q * (S0 + 4 * q)).
    { assert (0 <= Rsum al) by (rewrite <- A2; apply Rsum_abs_pos). apply Rmult_le_compat; auto; nra. }
    assert (Q0 : 0 <= q) by lra. assert (Q2 : q * q <= / 128 * q) by (apply Rmult_le_compat_r; auto). assert (Q3 : q <= q * S0) by nra.
    change s with (sum al). replace (sum al - S0) with ((sum al - Rsum al) + (Rsum al - S0)) by ring. eapply Rle_trans; [apply Rabs_triang|].
    assert (A6 : N * (4 * g) = 4 * q) by (unfold q; ring). rewrite A6 in A1. nra.
  Qed.

  Let L := lse_r rnd Exp Log sum ws.
  Let delta := L - m - ln S0.
  Lemma delta_err : Rabs delta <= 24 * q + u * Rabs m.
  Proof.
    pose proof N_ge1 as N1. pose proof g_nonneg as G0. pose proof S0_range as [S1 S2]. pose proof g_le_q as GQ. pose proof s_err as SE.
    assert (U0 : 0 <= u /\ 0 <= v /\ 0 <= eta <= u) by (destruct AR; auto). assert (UQ : u <= q /\ v <= q) by (unfold g in GQ; lra).
    set (z := s / S0 - 1). assert (ZS : s = S0 * (1 + z)) by (unfold z; field; lra).
    assert (Z1 : Rabs z <= 9 * q).
    { apply (Rmult_le_reg_r S0); [lra|]. replace (Rabs z * S0) with (Rabs (s - S0)); [lra|]. rewrite ZS. replace (S0 * (1 + z) - S0) with (z * S0) by ring. rewrite Rabs_mult, (Rabs_right S0) by lra. auto. }
    assert (Z2 : - (9 * q) <= z <= 9 * q) by (unfold Rabs in Z1; destruct (Rcase_abs z); lra).
    assert (LS : ln s = ln S0 + ln (1 + z)) by (rewrite ZS; apply ln_mult; lra).
    pose proof (ln_small z ltac:(lra)) as LZ. 
    assert (LN0 : 0 <= ln S0) by (rewrite <- ln_1; apply ln_le; lra).
    assert (LN1 : ln S0 <= N - 1). { apply Rle_trans with (ln N); [apply ln_le; lra|]. rewrite <- (ln_exp (N - 1)). apply ln_le; [lra|]. pose proof (exp_ge (N - 1)). lra. }
    assert (LA : Rabs (ln s) <= N - 1 + 18 * q). { rewrite LS. eapply Rle_trans; [apply Rabs_triang|]. rewrite (Rabs_right (ln S0)) by lra. lra. }
    pose proof (ar_log _ _ _ _ _ _ _ AR s ltac:(rewrite ZS; nra)) as LO.
    assert (LO2 : Rabs (Log s - ln s) <= 2 * q).
    { eapply Rle_trans; [exact LO|]. apply Rle_trans with (v * (N - 1 + 18 * q) + v); [apply Rplus_le_compat_r, Rmult_le_compat_l; lra|].
      assert (v * N <= q) by (unfold q, g; nra). assert (v * (18 * q) <= v) by nra. nra. }
    pose proof (ar_rnd _ _ _ _ _ _ _ AR (Log s + m)) as RL.
    assert (EQ : L = rnd (Log s + m)) by reflexivity. rewrite <- EQ in RL.
    assert (AB : Rabs (Log s + m) <= N + Rabs m).
    { eapply Rle_trans; [apply Rabs_triang|]. apply Rplus_le_compat_r. replace (Log s) with ((Log s - ln s) + ln s) by ring. eapply Rle_trans; [apply Rabs_triang|]. lra. }
    assert (RL2 : Rabs (L - (Log s + m)) <= 2 * q + u * Rabs m).
    { eapply Rle_trans; [exact RL|]. apply (Rmult_le_compat_l u) in AB; [|lra]. assert (u * N <= q) by (unfold q, g; nra). nra. }
    unfold delta. replace (L - m - ln S0) with ((L - (Log s + m)) + ((Log s - ln s) + ln (1 + z))) by (rewrite LS; ring).
    eapply Rle_trans; [apply Rabs_triang|]. pose proof (Rabs_triang (Log s - ln s) (ln (1 + z))). lra.
  Qed.

  Definition soft (w : R) : R := exp w / Rsum (map exp ws).
  Lemma soft_alt : forall w, soft w = exp (w - m) / S0.
  Proof.
    intros w. unfold soft, S0. rewrite (Rsum_map_ext _ (fun w => exp (w - m)) (fun w => exp w / exp m)) by (intros; unfold Rminus; rewrite exp_plus, exp_Ropp; auto).
    rewrite Rsum_map_div. unfold Rminus. rewrite exp_plus, exp_Ropp. pose proof (exp_pos m). assert (0 < Rsum (map exp ws)).
    { destruct ws as [|a l]; [congruence|]. apply (Rsum_map_pos _ exp _ a); [intros; left; apply exp_pos|left; auto|apply exp_pos]. }
    field. split; lra.
  Qed.
  Lemma soft_err : forall w, In w ws -> Rabs (Exp (rnd (w - L)) - soft w) <= 4 * g + soft w * (48 * q + 2 * (u * Rabs m)).
  Proof.
    intros w Hw. pose proof N_ge1 as N1. pose proof g_nonneg as G0. pose proof S0_range as [S1 S2]. pose proof g_le_q as GQ. pose proof delta_err as DE.
    destruct (row_max_spec ws Hne) as [_ H2]. fold m in H2. specialize (H2 w Hw).
    assert (D2 : Rabs delta <= / 2) by lra. assert (D3 : - / 2 <= delta) by (unfold Rabs in D2; destruct (Rcase_abs delta); lra).
    assert (LN0 : 0 <= ln S0) by (rewrite <- ln_1; apply ln_le; lra).
    assert (WL : w - L = (w - m) + - ln S0 + - delta) by (unfold delta; ring).
    pose proof (exp_err (w - L) ltac:(rewrite WL; lra) ltac:(lra)) as EE.
    assert (SP : 0 < soft w). { rewrite soft_alt. apply Rmult_lt_0_compat; [apply exp_pos|apply Rinv_0_lt_compat; lra]. }
    assert (EX : exp (w - L) = soft w * exp (- delta)). { rewrite WL, !exp_plus, soft_alt, (exp_Ropp (ln S0)), exp_ln by lra. auto. }
    pose proof (exp_small (- delta) ltac:(rewrite Rabs_Ropp; auto)) as ES. rewrite Rabs_Ropp in ES.
    replace (Exp (rnd (w - L)) - soft w) with ((Exp (rnd (w - L)) - exp (w - L)) + soft w * (exp (- delta) - 1)) by (rewrite EX; ring).
    eapply Rle_trans; [apply Rabs_triang|]. rewrite Rabs_mult, (Rabs_right (soft w)) by lra.
    apply (Rmult_le_compat_l (soft w)) in ES; [|lra]. assert (soft w * (2 * Rabs delta) <= soft w * (48 * q + 2 * (u * Rabs m))) by (apply Rmult_le_compat_l; lra). lra.
  Qed.
  Lemma soft_sum : Rsum (map soft ws) = 1.
  Proof.
    unfold soft. rewrite Rsum_map_div. apply Rinv_r. assert (0 < Rsum (map exp ws)); [|lra].
    destruct ws as [|a l]; [congruence|]. apply (Rsum_map_pos _ exp _ a); [intros; left; apply exp_pos|left; auto|apply exp_pos].
  Qed.
  Theorem softmax_err : dist1 (softmax_r rnd Exp Log sum ws) (map soft ws) <= 52 * q + 2 * (u * Rabs m).
  Proof.
    unfold dist1, softmax_r. fold L.
    assert (M2 : forall l, map2 (fun p q : R => Rabs (p - q)) (map (fun wi => Exp (rnd (wi - L))) l) (map soft l) = map (fun w => Rabs (Exp (rnd (w - L)) - soft w)) l) by (induction l as [|a l IH]; cbn; [auto|rewrite IH; auto]).
    rewrite M2. apply Rle_trans with (Rsum (map (fun w => 4 * g + soft w * (48 * q + 2 * (u * Rabs m))) ws)); [apply Rsum_map_le; intros; apply soft_err; auto|].
    rewrite Rsum_map_plus, Rsum_map_const. rewrite (Rsum_map_ext _ (fun x => soft x * (48 * q + 2 * (u * Rabs m))) (fun x => (48 * q + 2 * (u * Rabs m)) * soft x)) by (intros; ring).
    rewrite Rsum_map_scal, soft_sum. fold N. unfold q. lra.
  Qed.
End Err.
