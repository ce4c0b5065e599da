(** * Double precision: instance of the arithmetic and loss of the normalisation *)
From Coq Require Import List Arith Bool Reals ZArith Lia Lra.
From Flocq Require Import Core Relative.
From Verif Require Import Np RVec RVecFacts Rounding RoundSpec RoundFacts RoundFacts2.
Import ListNotations.
Open Scope R_scope.

#[global] Instance prec53 : Prec_gt_0 53. Proof. unfold Prec_gt_0. lia. Qed.
Notation fexp64 := (FLT_exp (-1074) 53).
Definition u64 : R := bpow radix2 (-53).
Definition eta64 : R := bpow radix2 (-1075).
Lemma b64_err : forall x, Rabs (b64 x - x) <= u64 * Rabs x + eta64.
Proof.
  intros x. destruct (error_N_FLT radix2 (-1074) 53 ltac:(lia) (fun t => negb (Z.even t)) x) as (eps & et & H1 & H2 & _ & H4).
  assert (E1 : / 2 * bpow radix2 (-53 + 1) = u64). { unfold u64. rewrite bpow_plus. cbn [bpow]. cbn. lra. }
  assert (E2 : / 2 * bpow radix2 (-1074) = eta64). { unfold eta64. change (-1075)%Z with (-1074 + -1)%Z. rewrite bpow_plus. replace (bpow radix2 (-1)) with (/ 2); [lra|]. cbn. lra. }
  change (- (53) + 1)%Z with (-53 + 1)%Z in H1. rewrite E1 in H1. rewrite E2 in H2. change (b64 x) with (round radix2 fexp64 ZnearestE x). rewrite H4.
  replace (x * (1 + eps) + et - x) with (eps * x + et) by ring. eapply Rle_trans; [apply Rabs_triang|]. rewrite Rabs_mult. pose proof (Rabs_pos x). assert (Rabs eps * Rabs x <= u64 * Rabs x) by (apply Rmult_le_compat_r; auto). lra.
Qed.
(** addition from left to right *)
Definition lsum (rnd : R -> R) (l : list R) : R := match l with [] => 0 | a :: l' => fold_left (fun s x => rnd (s + x)) l' a end.
Lemma lsum_rounded : forall rnd l, l <> [] -> rounded_sum rnd l (lsum rnd l).
Proof.
  intros rnd [|a l] H; [congruence|]. cbn [lsum]. clear H.
  assert (K : forall l pre s, rounded_sum rnd pre s -> rounded_sum rnd (pre ++ l) (fold_left (fun s x => rnd (s + x)) l s)).
  { clear. induction l as [|x l IH]; intros pre s H; cbn [fold_left]; [rewrite app_nil_r; auto|]. replace (pre ++ x :: l) with ((pre ++ [x]) ++ l) by (rewrite <- app_assoc; auto). apply IH. apply rs_add; auto. constructor. }
  apply (K l [a] a). constructor.
Qed.
Lemma fmt_bpow : forall e, (-1074 <= e)%Z -> is_b64 (bpow radix2 e).
Proof. intros e H. unfold is_b64. apply generic_format_bpow. unfold FLT_exp. lia. Qed.
Lemma b64_id : forall x, is_b64 x -> b64 x = x.
Proof. intros. apply round_generic; auto. apply valid_rnd_N. Qed.
Lemma b64_0 : b64 0 = 0. Proof. apply round_0. apply valid_rnd_N. Qed.
Lemma b64_mono : forall x y, x <= y -> b64 x <= b64 y.
Proof. intros. apply round_le; auto. apply FLT_exp_valid. apply prec53. apply valid_rnd_N. Qed.
Lemma bpow_le : forall a b, (a <= b)%Z -> bpow radix2 a <= bpow radix2 b. Proof. intros. apply Raux.bpow_le. auto. Qed.

Lemma b64_arithmetic : arithmetic u64 u64 eta64 b64 (fun x => b64 (exp x)) (fun x => b64 (ln x)) (lsum b64).
Proof.
  assert (U : 0 <= u64) by apply bpow_ge_0. assert (E : 0 <= eta64 <= u64) by (split; [apply bpow_ge_0|apply bpow_le; lia]).
  constructor; auto using b64_err, lsum_rounded.
  - intros x. pose proof (b64_err (exp x)). rewrite (Rabs_right (exp x)) in H by (left; apply exp_pos). lra.
  - intros x. rewrite <- b64_0. apply b64_mono. left; apply exp_pos.
  - intros x _. pose proof (b64_err (ln x)). lra.
Qed.
Lemma b64_small : 100 * (u64 + u64) + u64 * 1000000 <= / 128.
Proof. unfold u64. apply Rle_trans with (2000000 * bpow radix2 (-53)); [pose proof (bpow_ge_0 radix2 (-53)); lra|]. replace (bpow radix2 (-53)) with (/ 9007199254740992); [lra|]. cbn. f_equal. Qed.

(** a large number absorbs a summand below half an ulp *)
Lemma absorbed : forall k d, (55 <= k)%Z -> 0 <= d <= 1 -> b64 (d + - bpow radix2 k) = - bpow radix2 k.
Proof.
  intros k d Hk Hd. assert (F : is_b64 (- bpow radix2 k)) by (apply generic_format_opp, fmt_bpow; lia).
  apply Rle_antisym.
  - unfold b64. apply round_N_le_midp; [apply FLT_exp_valid, prec53|exact F|]. rewrite succ_opp, pred_bpow.
    replace (fexp64 k) with (k - 53)%Z by (unfold FLT_exp; lia).
    assert (bpow radix2 2 <= bpow radix2 (k - 53)) by (apply bpow_le; lia). cbn [bpow Z.pow_pos Pos.iter radix_val radix2] in H. cbn in H. lra.
  - rewrite <- (b64_id _ F) at 1. apply b64_mono. lra.
Qed.
Lemma not_normalised : forall Exp Log sum, Exp 0 = 1 -> 0 <= Log 2 <= 1 -> (forall a b, sum [a; b] = b64 (a + b)) ->
  forall i l j, (-1074 <= i)%Z -> (-1074 <= l)%Z -> (55 <= i + l)%Z -> (-1074 <= j)%Z ->
  let cs := coeffs_r b64 Exp Log sum (bpow radix2 i) [bpow radix2 l; bpow radix2 l] in
  cs = [1; 1] /\ mean_r b64 sum cs [bpow radix2 j; bpow radix2 j] = 2 * bpow radix2 j.
Proof.
  intros Exp Log sum HE HL HS i l j Hi Hl Hk Hj.
  assert (W : b64 (- bpow radix2 i * bpow radix2 l) = - bpow radix2 (i + l)). { rewrite <- Ropp_mult_distr_l, <- bpow_plus. apply b64_id, generic_format_opp, fmt_bpow. lia. }
  assert (B2 : b64 (1 + 1) = 2). { replace (1 + 1) with (bpow radix2 1) by (cbn; lra). rewrite b64_id by (apply fmt_bpow; lia). cbn. lra. }
  assert (MX : row_max [- bpow radix2 (i + l); - bpow radix2 (i + l)] = - bpow radix2 (i + l)). { unfold row_max. cbn. unfold Rmax. repeat destruct (Rle_dec _ _); auto. }
  cbn zeta. assert (CS : coeffs_r b64 Exp Log sum (bpow radix2 i) [bpow radix2 l; bpow radix2 l] = [1; 1]).
  { unfold coeffs_r. cbn [map]. rewrite W. set (w := - bpow radix2 (i + l)) in *.
    assert (LS : lse_r b64 Exp Log sum [w; w] = w).
    { unfold lse_r. rewrite MX. cbn [map]. replace (w - w) with 0 by ring. rewrite b64_0, HE, HS, B2. apply absorbed; auto. }
    unfold softmax_r. rewrite LS. cbn [map]. replace (w - w) with 0 by ring. rewrite b64_0, HE. auto. }
  split; auto. rewrite CS. unfold mean_r. cbn [map2]. rewrite !Rmult_1_r, !(b64_id (bpow radix2 j)) by (apply fmt_bpow; auto). rewrite HS.
  replace (bpow radix2 j + bpow radix2 j) with (bpow radix2 (1 + j)) by (rewrite bpow_plus; cbn; lra). rewrite b64_id by (apply fmt_bpow; lia). rewrite bpow_plus. cbn. lra.
Qed.
Lemma real_libraries : (fun x => b64 (exp x)) 0 = 1 /\ 0 <= b64 (ln 2) <= 1 /\ forall a b, lsum b64 [a; b] = b64 (a + b).
Proof.
  assert (F1 : b64 1 = 1). { change 1 with (bpow radix2 0). apply b64_id, fmt_bpow. lia. }
  split; [rewrite exp_0; auto|]. split; [|reflexivity]. split.
  - rewrite <- b64_0. apply b64_mono. rewrite <- ln_1. apply RoundFacts.ln_le; lra.
  - rewrite <- F1 at 1. apply b64_mono. rewrite <- (ln_exp 1). apply RoundFacts.ln_le; [lra|]. pose proof (exp_ge 1). lra.
Qed.
Lemma rescaled_small : 10 ^ 10 * eta64 <= u64 /\ INR 3 * (u64 + u64) <= / 128.
Proof.
  split.
  - unfold eta64, u64. replace (bpow radix2 (-53)) with (bpow radix2 40 * bpow radix2 (-93)) by (rewrite <- bpow_plus; auto).
    apply Rmult_le_compat; [lra|apply bpow_ge_0|cbn; lra|apply bpow_le; lia].
  - pose proof b64_small. assert (0 <= u64) by apply bpow_ge_0. cbn. lra.
Qed.
