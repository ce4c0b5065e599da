(** * Ten steps of 0.1 in double precision *)
From Coq Require Import List Arith Bool Reals ZArith Lia Lra.
From Flocq Require Import Core Relative.
From Verif Require Import Scalar Np State Pdyn PdynFacts PdynOk Exec TermSpec RunFacts Script RVec Rounding RoundSpec RoundFacts ExRound ClockSpec ClockFacts ExR.
Import ListNotations.
Open Scope R_scope.

Lemma b64_val : forall x k f r n, (-1021 <= k)%Z -> bpow radix2 (k - 1) <= x < bpow radix2 k -> x * bpow radix2 (53 - k) = IZR f + r -> 0 <= r < 1 ->
  (r < / 2 /\ n = f) \/ (r = / 2 /\ n = if Z.even f then f else (f + 1)%Z) \/ (/ 2 < r /\ n = (f + 1)%Z) -> b64 x = IZR n * bpow radix2 (k - 53).
Proof.
  intros x k f r n Hk Hx Hf Hr Hn. change (b64 x) with (round radix2 fexp64 ZnearestE x). unfold round, scaled_mantissa, F2R. cbn [Fnum Fexp].
  assert (M : mag_val radix2 x (mag radix2 x) = k). { apply mag_unique. rewrite Rabs_right; auto. apply Rle_ge. eapply Rle_trans; [apply bpow_ge_0|apply Hx]. }
  assert (C : cexp radix2 fexp64 x = (k - 53)%Z) by (unfold cexp; rewrite M; unfold FLT_exp; lia). rewrite C.
  replace (- (k - 53))%Z with (53 - k)%Z by lia. rewrite Hf. do 2 f_equal.
  assert (FL : Zfloor (IZR f + r) = f) by (apply Zfloor_imp; rewrite plus_IZR; lra).
  unfold Znearest. rewrite FL. replace (IZR f + r - IZR f) with r by ring.
  assert (CE : 0 < r -> Zceil (IZR f + r) = (f + 1)%Z) by (intros; apply Zceil_imp; rewrite minus_IZR, plus_IZR; lra).
  destruct Hn as [[H ->]|[[H ->]|[H ->]]].
  - rewrite Rcompare_Lt; auto.
  - rewrite Rcompare_Eq, CE by lra. destruct (Z.even f); auto.
  - rewrite Rcompare_Gt by auto. apply CE. lra.
Qed.

Ltac tick_tac := cbn; first [lia | lra | (left; split; [lra|reflexivity]) | (right; left; split; [lra|reflexivity]) | (right; right; split; [lra|reflexivity])].
(** the double nearest to 0.1 *)
Definition tenth : R := IZR 7205759403792794 * bpow radix2 (-56).
Lemma tenth_b64 : b64 (/ 10) = tenth.
Proof. apply (b64_val _ (-3) 7205759403792793 (6 / 10)); tick_tac. Qed.
Lemma tenth_above : / 10 < tenth.
Proof. unfold tenth. cbn. lra. Qed.
Lemma tick1 : b64 (0 + tenth) = IZR 7205759403792794 * bpow radix2 (-56).
Proof. apply (b64_val _ (-3) 7205759403792794 0); unfold tenth; tick_tac. Qed.
Lemma tick2 : b64 (IZR 7205759403792794 * bpow radix2 (-56) + tenth) = IZR 7205759403792794 * bpow radix2 (-55).
Proof. apply (b64_val _ (-2) 7205759403792794 0); unfold tenth; tick_tac. Qed.
Lemma tick3 : b64 (IZR 7205759403792794 * bpow radix2 (-55) + tenth) = IZR 5404319552844596 * bpow radix2 (-54).
Proof. apply (b64_val _ (-1) 5404319552844595 (1 / 2)); unfold tenth; tick_tac. Qed.
Lemma tick4 : b64 (IZR 5404319552844596 * bpow radix2 (-54) + tenth) = IZR 7205759403792794 * bpow radix2 (-54).
Proof. apply (b64_val _ (-1) 7205759403792794 (1 / 2)); unfold tenth; tick_tac. Qed.
Lemma tick5 : b64 (IZR 7205759403792794 * bpow radix2 (-54) + tenth) = IZR 4503599627370496 * bpow radix2 (-53).
Proof. apply (b64_val _ (0) 4503599627370496 (1 / 4)); unfold tenth; tick_tac. Qed.
Lemma tick6 : b64 (IZR 4503599627370496 * bpow radix2 (-53) + tenth) = IZR 5404319552844595 * bpow radix2 (-53).
Proof. apply (b64_val _ (0) 5404319552844595 (1 / 4)); unfold tenth; tick_tac. Qed.
Lemma tick7 : b64 (IZR 5404319552844595 * bpow radix2 (-53) + tenth) = IZR 6305039478318694 * bpow radix2 (-53).
Proof. apply (b64_val _ (0) 6305039478318694 (1 / 4)); unfold tenth; tick_tac. Qed.
Lemma tick8 : b64 (IZR 6305039478318694 * bpow radix2 (-53) + tenth) = IZR 7205759403792793 * bpow radix2 (-53).
Proof. apply (b64_val _ (0) 7205759403792793 (1 / 4)); unfold tenth; tick_tac. Qed.
Lemma tick9 : b64 (IZR 7205759403792793 * bpow radix2 (-53) + tenth) = IZR 8106479329266892 * bpow radix2 (-53).
Proof. apply (b64_val _ (0) 8106479329266892 (1 / 4)); unfold tenth; tick_tac. Qed.
Lemma tick10 : b64 (IZR 8106479329266892 * bpow radix2 (-53) + tenth) = IZR 9007199254740991 * bpow radix2 (-53).
Proof. apply (b64_val _ (0) 9007199254740991 (1 / 4)); unfold tenth; tick_tac. Qed.
Lemma tick11 : b64 (IZR 9007199254740991 * bpow radix2 (-53) + tenth) = IZR 4953959590107545 * bpow radix2 (-52).
Proof. apply (b64_val _ (1) 4953959590107545 (1 / 8)); unfold tenth; tick_tac. Qed.

Lemma ticks_tenth : forall k, (k < 11)%nat -> @ticks R (KOps_rounded b64) 0 tenth k < 1.
Proof.
  intros k Hk. do 11 (destruct k as [|k]; [cbn [ticks kadd KOps_rounded]; rewrite ?tick1, ?tick2, ?tick3, ?tick4, ?tick5, ?tick6, ?tick7, ?tick8, ?tick9, ?tick10; cbn; lra|]). lia.
Qed.
Lemma ticks_eleven : @ticks R (KOps_rounded b64) 0 tenth 11 = IZR 4953959590107545 * bpow radix2 (-52).
Proof. cbn [ticks kadd KOps_rounded]. rewrite tick1, tick2, tick3, tick4, tick5, tick6, tick7, tick8, tick9, tick10, tick11. reflexivity. Qed.

(** every dynamic with dt = 0.1 and max_time = 1 *)
Theorem eleven_steps : forall V, let O := KOps_rounded b64 in forall (c : cfg R V) sched os i s log, exec c s log -> (1 <= s_M s)%nat -> plain c (s_N s) -> param_sched sched -> total_sched sched -> leaves_dt sched -> in_range os s ->
  c_crit c = [CMaxTime (Fin 1)] -> s_t s = Fin 0 -> s_dt s = Fin (b64 (/ 10)) ->
  1 <= 10 * b64 (/ 10) /\ (forall fuel, (fuel < 11)%nat -> optimize_loop c (step c) sched os fuel i s = None) /\
  forall fuel, (11 <= fuel)%nat -> exists s', optimize_loop c (step c) sched os fuel i s = Some (Ok s') /\ s_it s' = (s_it s + 11)%nat.
Proof.
  intros V O c sched os i s log EX HM HP PS TS LD IR HC Ht Hd. rewrite tenth_b64 in *. split; [pose proof tenth_above; lra|].
  assert (K1 : kltb (ticks 0 tenth 11) 1 = false) by (apply Rltb_false; unfold O; rewrite ticks_eleven; cbn; lra).
  assert (K2 : forall k, (k < 11)%nat -> kltb (ticks 0 tenth k) 1 = true) by (intros k Hk; apply Rltb_true, ticks_tenth; auto).
  split; intros fuel Hf; destruct (clock_exact c sched os 1 tenth fuel i s log 0 11 EX HM HP PS TS LD IR HC Ht Hd K1 K2) as [A B]; auto.
  destruct (B Hf) as (s' & E & I & _). exists s'. auto.
Qed.

(** steps of 2^j never pass 2^(j+53) *)
Lemma ticks_stall : forall j k, (-1074 <= j)%Z -> @ticks R (KOps_rounded b64) 0 (bpow radix2 j) k <= bpow radix2 (j + 53).
Proof.
  intros j k Hj. assert (F : is_b64 (bpow radix2 (j + 53))) by (apply fmt_bpow; lia). induction k as [|k IH]; cbn [ticks kadd KOps_rounded]; [apply bpow_ge_0|].
  assert (S1 : b64 (bpow radix2 (j + 53) + bpow radix2 j) = bpow radix2 (j + 53)).
  { destruct (Z_lt_le_dec (-1021) (j + 54)) as [L|L]; [|lia]. rewrite (b64_val _ (j + 54) (2 ^ 52) (/ 2) (2 ^ 52)).
    - replace (IZR (2 ^ 52)) with (bpow radix2 52) by reflexivity. rewrite <- bpow_plus. f_equal. lia.
    - lia.
    - replace (j + 54 - 1)%Z with (j + 53)%Z by lia. pose proof (bpow_ge_0 radix2 j). replace (bpow radix2 (j + 54)) with (2 * bpow radix2 (j + 53)).
      + assert (bpow radix2 j < bpow radix2 (j + 53)) by (apply bpow_lt; lia). lra.
      + replace (j + 54)%Z with (1 + (j + 53))%Z by lia. rewrite (bpow_plus _ 1). cbn. lra.
    - rewrite Rmult_plus_distr_r, <- !bpow_plus. replace (j + 53 + (53 - (j + 54)))%Z with 52%Z by lia. replace (j + (53 - (j + 54)))%Z with (-1)%Z by lia. reflexivity.
    - lra.
    - right. left. split; auto. }
  rewrite <- S1. apply b64_mono. lra.
Qed.
Theorem stalls : forall V, let O := KOps_rounded b64 in forall (c : cfg R V) sched os i s log j T, exec c s log -> (1 <= s_M s)%nat -> plain c (s_N s) -> param_sched sched -> total_sched sched -> leaves_dt sched -> in_range os s ->
  c_crit c = [CMaxTime (Fin T)] -> s_t s = Fin 0 -> s_dt s = Fin (bpow radix2 j) -> (-1074 <= j)%Z -> bpow radix2 (j + 53) < T ->
  forall fuel, optimize_loop c (step c) sched os fuel i s = None.
Proof.
  intros V O c sched os i s log j T EX HM HP PS TS LD IR HC Ht Hd Hj HT. apply (clock_never c sched os T (bpow radix2 j) i s log 0); auto.
  intros k. apply Rltb_true. eapply Rle_lt_trans; [apply ticks_stall; auto|auto].
Qed.

(** the dynamic of ExR in double precision *)
#[local] Instance KB : KOps R := KOps_rounded b64.
Definition bsum (v : rvec) : fl R := fold_right fadd (Fin 0) v.
Definition bcfg (T : R) : cfg R rvec :=
  {| c_f := bsum; c_vadd := map2 fadd; c_vsub := map2 fsub; c_vscale := fun a => map (fmul a);
     c_norm := fun l => bsum (concat l); c_dmean := fun l => bsum (concat l);
     c_ccrow := fun e x a => match x with v :: _ => [v] | [] => [[]] end;
     c_noise := fun dt d z => map2 fmul d z; c_pp := fun v => v;
     c_corr := NoCorr; c_bsize := 2; c_partial := true; c_concat := false;
     c_crit := [CMaxTime (Fin T)]; c_savepts := false |}.
Definition bsched (s : st R rvec) : res (st R rvec) := Ok s.
Lemma binit_ok : forall T d, c_crit (bcfg T) = [CMaxTime (Fin T)] /\ exists s, exec (bcfg T) s [] /\ (1 <= s_M s)%nat /\ plain (bcfg T) (s_N s) /\ param_sched bsched /\ total_sched bsched /\ leaves_dt bsched /\ in_range (fun _ => rorc) s /\
  s_t s = Fin 0 /\ s_dt s = Fin d.
Proof.
  intros T d. split; [reflexivity|]. assert (X : exists s, init (bcfg T) rx0 false (Fin 1) (Fin 1) (Fin 1) (Fin d) (fun _ => [2; 0; 1]%nat) None [] None = Ok s /\ s_M s = 2%nat /\ s_N s = 3%nat /\ s_t s = Fin 0 /\ s_dt s = Fin d).
  { eexists. split; [reflexivity|]. repeat split; reflexivity. }
  destruct X as (s & E & M & N & T0 & D). exists s. split.
  - apply ex_init. exists rx0, false, (Fin 1), (Fin 1), (Fin 1), (Fin d), (fun _ => [2; 0; 1]%nat), None, [], None.
    split; [split; [reflexivity|repeat constructor]|]. split; [cbn; lia|]. split; [cbn; lia|]. split; [|split; [discriminate|exact E]].
    intros m _. apply (perm_b_ok 3). reflexivity.
  - split; [lia|]. split; [split; [left; intros e x a; cbn; destruct x; reflexivity|reflexivity]|].
    split; [intros q q' H; inversion H; subst; exists (s_alpha q'), (s_sigma q'), (s_lamda q'), (s_dt q'); split; auto; destruct q'; reflexivity|].
    split; [intros q; exists q; reflexivity|]. split; [intros q q' H; inversion H; auto|]. split; [|auto].
    intros j m _. rewrite N. apply (perm_b_ok 3). reflexivity.
Qed.
