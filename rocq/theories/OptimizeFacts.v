(** * optimize with its arguments: proofs *)
From Coq Require Import List Arith Bool Reals Lra Lia ZArith.
From Verif Require Import Scalar Np NpFacts State Pdyn PdynFacts PdynStep PdynRun Exec PdynOk StepFrame TermSpec TermFacts Sched SchedFacts EssFacts EssReach BestFacts Optimize OptimizeSpec.
Import ListNotations.
Open Scope R_scope.

Section F.
  Context {V : Type}.
  Notation st := (st R V).
  Notation cfg := (cfg R V).
  Notation orc := (orc V).

  (** ** print_int *)
  Lemma opt_loop_print : forall (c : cfg) stepf upd p os, (1 <= p)%nat -> forall fuel i (s : st),
    opt_loop c stepf upd p os fuel i s = optimize_loop c stepf upd os fuel i s.
  Proof.
    intros c stepf upd p os Hp. destruct p as [|p]; [lia|].
    induction fuel; intros; cbn [opt_loop optimize_loop]; destruct (terminate c s) as [[[] s']|]; auto.
    cbn [Nat.eqb]. destruct (stepf (os i) s') as [s1|]; cbn [bind]; auto. destruct (upd s1) as [s2|]; cbn [bind]; auto.
  Qed.
  Lemma optimize_is_loop : forall (c : cfg) stepf cbx pi a os fuel (s : st), (1 <= match pi with Some p => p | None => s_save s end)%nat ->
    optimize c stepf cbx pi a os fuel s = match optimize_loop c stepf (resolve cbx a) os fuel 0 s with None => None | Some r => Some (s' <- r ;; Ok (s_bp s', s')) end.
  Proof. intros. unfold optimize. rewrite opt_loop_print; auto. Qed.
  Lemma print_zero : forall (c : cfg) stepf cbx a os fuel (s s1 s2 s3 : st), terminate c s = Ok (false, s1) -> stepf (os 0%nat) s1 = Ok s2 -> resolve cbx a s2 = Ok s3 ->
    optimize c stepf cbx (Some 0%nat) a os (S fuel) s = Some (Err ZeroDivision).
  Proof. intros c stepf cbx a os fuel s s1 s2 s3 H1 H2 H3. unfold optimize. cbn [opt_loop]. rewrite H1, H2. cbn [bind]. rewrite H3. reflexivity. Qed.
  Lemma other_fails : forall (c : cfg) stepf cbx pi os fuel (s s1 s2 : st), terminate c s = Ok (false, s1) -> stepf (os 0%nat) s1 = Ok s2 ->
    optimize c stepf cbx pi SOther os (S fuel) s = Some (Err TypeError).
  Proof. intros c stepf cbx pi os fuel s s1 s2 H1 H2. unfold optimize. cbn [opt_loop]. rewrite H1, H2. reflexivity. Qed.
  Lemma finished_any : forall (c : cfg) stepf cbx pi a os fuel (s s1 : st), terminate c s = Ok (true, s1) ->
    optimize c stepf cbx pi a os fuel s = Some (Ok (s_bp s, s1)).
  Proof.
    intros c stepf cbx pi a os fuel s s1 H. unfold optimize. assert (E : s_bp s1 = s_bp s).
    { apply terminate_char in H. destruct H as (act & re & -> & _). destruct s; reflexivity. }
    destruct fuel; cbn [opt_loop]; rewrite H; cbn [bind]; rewrite E; reflexivity.
  Qed.

  (** ** frames *)
  Lemma step_alpha_it : forall (c : cfg) o (s s' : st), step c o s = Ok s' -> s_alpha s' = s_alpha s /\ s_it s' = S (s_it s).
  Proof.
    intros c o s s' H. apply step_split in H. destruct H as (s1 & s2 & E1 & E2 & E3).
    apply pre_step_frame in E1. destruct E1 as (ci & pi & ind & xo & ->).
    apply cbo_step_frame in E2. destruct E2 as (x & d & cep & e & cp & fc & nf & ->).
    apply post_step_frame in E3. destruct E3 as (x' & ud & fm & bcp & bce & be & bp & s5 & Et & ->).
    apply track_frame in Et. destruct Et as (ti & ts & h & ->). destruct s; auto.
  Qed.
  Lemma term_alpha_it : forall (c : cfg) (s s' : st) b, terminate c s = Ok (b, s') -> s_alpha s' = s_alpha s /\ s_it s' = s_it s.
  Proof. intros c s s' b H. apply terminate_char in H. destruct H as (act & re & -> & _). destruct s; auto. Qed.

  (** ** the default schedule over a run *)
  Lemma fmin_cap : forall m a : R, fmin (Fin m) (fmul (Fin (21 / 20)) (Fin a)) = Fin (Rmin m (21 / 20 * a)).
  Proof. intros. cbn [fmul]. rewrite fmin_fin. reflexivity. Qed.
  Lemma default_alpha : forall (s s' : st) l, alphas s l -> default_sched true s = Ok s' -> alphas s' (map (scheduled 1) l) /\ s_it s' = s_it s.
  Proof.
    intros s s' l H E. unfold alphas in *. cbn [default_sched scheduler_update bind multiply_update] in E. injection E as <-. split; [|destruct s; auto].
    unfold ensure_max, on_param. sst. rewrite !concat_map2, H, !map_map. apply map_ext. intros v. rewrite fmin_cap. cbn [scheduled]. rewrite pow_1. auto.
  Qed.
  Lemma scheduled_add : forall a b v, scheduled b (scheduled a v) = scheduled (a + b) v.
  Proof.
    intros [|a] [|b] v; cbn [scheduled Nat.add]; auto; [rewrite Nat.add_0_r; auto|].
    replace (S (a + S b))%nat with (S b + S a)%nat by lia. rewrite pow_add, Rmult_assoc.
    assert (P : 1 <= (21 / 20) ^ S b) by (apply pow_R1_Rle; lra).
    set (f := (21 / 20) ^ S b) in *. set (y := (21 / 20) ^ S a * v). unfold Rmin at 2. destruct (Rle_dec 100000 y); auto.
    rewrite !Rmin_left; auto; nra.
  Qed.
  Lemma loop_default : forall (c : cfg) p os fuel i (s s' : st) l, alphas s l -> opt_loop c (step c) (default_sched true) p os fuel i s = Some (Ok s') ->
    (s_it s <= s_it s')%nat /\ alphas s' (map (scheduled (s_it s' - s_it s)) l).
  Proof.
    induction fuel; intros i s s' l HA H; cbn [opt_loop] in H; destruct (terminate c s) as [[[] s1]|] eqn:E; try discriminate H; pose proof (term_alpha_it _ _ _ _ E) as [A I].
    - injection H as <-. rewrite I, Nat.sub_diag. split; auto. unfold alphas in *. rewrite A, HA. f_equal. symmetry. apply map_id.
    - injection H as <-. rewrite I, Nat.sub_diag. split; auto. unfold alphas in *. rewrite A, HA. f_equal. symmetry. apply map_id.
    - destruct (step c (os i) s1) as [s2|] eqn:E2; cbn [bind] in H; [|discriminate H]. destruct (default_sched true s2) as [s3|] eqn:E3; cbn [bind] in H; [|discriminate H].
      destruct (p =? 0)%nat; [discriminate H|]. destruct (step_alpha_it _ _ _ _ E2) as [A2 I2].
      assert (HA2 : alphas s2 l) by (unfold alphas in *; congruence). destruct (default_alpha _ _ _ HA2 E3) as [A3 I3].
      destruct (IHfuel _ _ _ _ A3 H) as [L4 A4]. split; [lia|]. rewrite map_map in A4.
      rewrite (map_ext _ (fun v => scheduled (s_it s' - s_it s3) (scheduled 1 v))); [exact A4|]. intros v. rewrite scheduled_add. f_equal. lia.
  Qed.
  Lemma optimize_inv : forall (c : cfg) stepf cbx pi a os fuel (s : st) bp s', optimize c stepf cbx pi a os fuel s = Some (Ok (bp, s')) ->
    bp = s_bp s' /\ opt_loop c stepf (resolve cbx a) (match pi with Some p => p | None => s_save s end) os fuel 0 s = Some (Ok s').
  Proof. unfold optimize; intros c stepf cbx pi a os fuel s bp s' H. destruct (opt_loop _ _ _ _ _ _ _ _) as [[r|]|]; try discriminate H. cbn [bind] in H. injection H as <- <-. auto. Qed.
  Lemma optimize_default : forall (c : cfg) pi os fuel (s s' : st) bp l, alphas s l -> optimize c (step c) true pi SDefault os fuel s = Some (Ok (bp, s')) ->
    (s_it s <= s_it s')%nat /\ alphas s' (map (scheduled (s_it s' - s_it s)) l).
  Proof. intros c pi os fuel s s' bp l HA H. apply optimize_inv in H. destruct H as [_ H]. eapply loop_default; eauto. Qed.
  Lemma loop_none : forall (c : cfg) p os fuel i (s s' : st), opt_loop c (step c) (scheduler_update []) p os fuel i s = Some (Ok s') -> s_alpha s' = s_alpha s.
  Proof.
    induction fuel; intros i s s' H; cbn [opt_loop] in H; destruct (terminate c s) as [[[] s1]|] eqn:E; try discriminate H; pose proof (term_alpha_it _ _ _ _ E) as [A I].
    - injection H as <-. auto.
    - injection H as <-. auto.
    - destruct (step c (os i) s1) as [s2|] eqn:E2; cbn [bind scheduler_update] in H; [|discriminate H].
      destruct (p =? 0)%nat; [discriminate H|]. destruct (step_alpha_it _ _ _ _ E2) as [A2 I2]. apply IHfuel in H. congruence.
  Qed.
  Lemma optimize_none : forall (c : cfg) cbx pi os fuel (s s' : st) bp, optimize c (step c) cbx pi SNone os fuel s = Some (Ok (bp, s')) -> s_alpha s' = s_alpha s.
  Proof. intros c cbx pi os fuel s s' bp H. apply optimize_inv in H. destruct H as [_ H]. eapply loop_none; eauto. Qed.
  Lemma reset_alpha : forall s : st, s_alpha (reset s) = s_alpha s.
  Proof. intros s. unfold reset, init_history. destruct s; reflexivity. Qed.
  Lemma calls_alpha : forall (c : cfg) n (s s' : st) l, alphas s l -> calls c n s s' -> alphas s' (map (scheduled n) l).
  Proof.
    intros c n s s' l HA H. induction H.
    - unfold alphas in *. rewrite HA. f_equal. symmetry. apply map_id.
    - specialize (IHcalls HA). destruct (optimize_default _ _ _ _ _ _ _ _ IHcalls H0) as [_ A]. rewrite map_map in A.
      rewrite (map_ext _ (fun v => scheduled (s_it s2 - s_it s1) (scheduled n v))); [exact A|]. intros v. symmetry. apply scheduled_add.
    - unfold alphas in *. rewrite reset_alpha. auto.
  Qed.

  (** ** when the cap is reached from alpha = 1 *)
  Lemma pow_frac : forall n, (21 / 20) ^ n = IZR (21 ^ Z.of_nat n) / IZR (20 ^ Z.of_nat n).
  Proof. intros. rewrite <- !pow_IZR. unfold Rdiv. rewrite Rpow_mult_distr, pow_inv by lra. auto. Qed.
  Lemma cap_reached : forall n, scheduled n 1 = 100000 <-> (236 <= n)%nat.
  Proof.
    assert (U : 100000 <= (21 / 20) ^ 236).
    { rewrite pow_frac. apply Rmult_le_reg_r with (IZR (20 ^ Z.of_nat 236)); [apply IZR_lt; vm_compute; auto|].
      unfold Rdiv. rewrite Rmult_assoc, Rinv_l, Rmult_1_r by (apply IZR_neq; vm_compute; discriminate). rewrite <- mult_IZR. apply IZR_le. apply Z.leb_le. vm_compute. reflexivity. }
    assert (L : (21 / 20) ^ 235 < 100000).
    { rewrite pow_frac. apply Rmult_lt_reg_r with (IZR (20 ^ Z.of_nat 235)); [apply IZR_lt; vm_compute; auto|].
      unfold Rdiv. rewrite Rmult_assoc, Rinv_l, Rmult_1_r by (apply IZR_neq; vm_compute; discriminate). rewrite <- mult_IZR. apply IZR_lt. apply Z.ltb_lt. vm_compute. reflexivity. }
    assert (S1 : scheduled 0 1 = 1) by reflexivity.
    assert (SS : forall k, scheduled (S k) 1 = Rmin 100000 ((21 / 20) ^ S k)) by (intros; cbn [scheduled]; rewrite Rmult_1_r; auto).
    intros n. destruct n as [|k]; [rewrite S1; split; [lra|lia]|]. rewrite SS. split; intros H.
    - destruct (le_lt_dec 236 (S k)) as [G|G]; auto. exfalso.
      assert ((21 / 20) ^ S k <= (21 / 20) ^ 235) by (apply Rle_pow; [lra|lia]). rewrite Rmin_right in H by lra. lra.
    - assert ((21 / 20) ^ 236 <= (21 / 20) ^ S k) by (apply Rle_pow; [lra|lia]). apply Rmin_left. lra.
  Qed.

  (** ** the schedule 'effective' over a run *)
  Lemma ess_frame : forall eta mx k (s s' : st), ess_update eta mx k s = Ok s' -> s' = set_alpha (s_alpha s') s.
  Proof.
    intros eta mx k s s' H. unfold ess_update in H. cbv zeta in H. generalize dependent (b_x (ess_solve eta mx k (s_M s) (s_energy s))).
    intros v H. injection H as <-. destruct s; reflexivity.
  Qed.
  Lemma ess_iteration : forall (c : cfg) (s s1 : st) b o, wf c s -> plain c (s_N s) -> terminate c s = Ok (b, s1) -> perms_valid o s1 ->
    exists s2 s3, step c o s1 = Ok s2 /\ ess_update (1 / 2) 100000 15 s2 = Ok s3 /\ wf c s3 /\ s_M s3 = s_M s /\ s_N s3 = s_N s /\ s_it s3 = S (s_it s) /\ Forall (ess_row (3 / 2)) (s_alpha s3).
  Proof.
    intros c s s1 b o W [G1 G2] HT P.
    pose proof (terminate_wf _ _ _ _ HT W) as W2. pose proof (term_frame _ _ _ _ HT) as (F1 & F2 & F3 & _).
    destruct (step_char c o s1 W2) as (s2 & E2 & W3 & (M3 & N3 & _ & _ & _ & _ & _ & I3 & _) & _); auto.
    { apply perms_valid_ok; auto. } { rewrite F2; auto. }
    exists s2. destruct (ess_update (1 / 2) 100000 15 s2) as [s3|] eqn:E3; [|unfold ess_update in E3; discriminate E3].
    assert (HL : length (s_energy s2) = s_M s2) by (apply w_e in W3; destruct W3; auto).
    assert (LA := ess_update_length _ _ _ _ _ _ HL E3).
    assert (RA : forall i row, nth_error (s_alpha s3) i = Some row -> ess_row (3 / 2) row).
    { intros i row Hr. assert (i < s_M s2)%nat by (rewrite <- LA; apply nth_error_Some; congruence).
      assert (M1 : / 100000 <= 100000) by lra.
      destruct (ess_update_range _ _ _ _ _ _ i row HL M1 E3 H Hr) as (a & -> & Ha). exists a. split; auto. cbn in Ha. lra. }
    assert (FA : Forall (ess_row (3 / 2)) (s_alpha s3)).
    { apply Forall_forall. intros r Hr. apply In_nth_error in Hr. destruct Hr as [k Hk]. eauto. }
    assert (PC : s3 = set_alpha (s_alpha s3) s2) by (eapply ess_frame; eauto).
    clear E3. exists s3. split; [exact E2|]. split; [reflexivity|]. split.
    { apply (params_wf c s2); auto. exists (s_alpha s3), (s_sigma s2), (s_lamda s2), (s_dt s2). split; [|rewrite PC at 1; destruct s2; reflexivity].
      intros _. split; auto. eapply Forall_impl; [|exact FA]. intros r (a & -> & _). reflexivity. }
    assert (Q1 : s_M s3 = s_M s2) by (rewrite PC; destruct s2; reflexivity). assert (Q2 : s_N s3 = s_N s2) by (rewrite PC; destruct s2; reflexivity).
    assert (Q3 : s_it s3 = s_it s2) by (rewrite PC; destruct s2; reflexivity). repeat split; try congruence; auto.
  Qed.
  Lemma effective_run : forall (c : cfg) p os, (1 <= p)%nat -> forall fuel i (s s' : st), wf c s -> plain c (s_N s) -> in_range os s ->
    opt_loop c (step c) (ess_update (1 / 2) 100000 15) p os fuel i s = Some (Ok s') ->
    (s_it s <= s_it s')%nat /\ (s_it s' = s_it s -> s_alpha s' = s_alpha s) /\ ((s_it s < s_it s')%nat -> length (s_alpha s') = s_M s /\ Forall (ess_row (3 / 2)) (s_alpha s')).
  Proof.
    intros c p os Hp. induction fuel; intros i s s' W G IR H; cbn [opt_loop] in H; destruct (terminate c s) as [[[] s1]|] eqn:E; try discriminate H; pose proof (term_alpha_it _ _ _ _ E) as [A I].
    - injection H as <-. split; [lia|]. split; auto. lia.
    - injection H as <-. split; [lia|]. split; auto. lia.
    - pose proof (term_frame _ _ _ _ E) as (F1 & F2 & _).
      destruct (ess_iteration c s s1 false (os i) W G E) as (s2 & s3 & E2 & E3 & W3 & M3 & N3 & I3 & A3); [eapply perms_valid_frame; eauto|].
      rewrite E2 in H. cbn [bind] in H. rewrite E3 in H. cbn [bind] in H. destruct p; [lia|]. cbn [Nat.eqb] in H.
      destruct (IHfuel _ _ _ W3 ltac:(rewrite N3; auto) ltac:(intros j; apply (perms_valid_frame _ s); auto) H) as (L & EQ & R).
      split; [lia|]. split; [lia|]. intros _. destruct (Nat.eq_dec (s_it s') (s_it s3)) as [e|e].
      + rewrite (EQ e). split; auto. apply w_al in W3. destruct W3. congruence.
      + rewrite <- M3. apply R. lia.
  Qed.
  Lemma optimize_effective : forall (c : cfg) cbx os fuel (s s' : st) log pi bp, exec c s log -> plain c (s_N s) -> in_range os s -> (1 <= match pi with Some p => p | None => s_save s end)%nat ->
    optimize c (step c) cbx pi SEffective os fuel s = Some (Ok (bp, s')) -> (s_it s < s_it s')%nat -> length (s_alpha s') = s_M s /\ Forall (ess_row (3 / 2)) (s_alpha s').
  Proof.
    intros c cbx os fuel s s' log pi bp E G IR Hp H Hlt. apply optimize_inv in H. destruct H as [_ H]. cbn [resolve] in H.
    eapply effective_run in H; eauto using exec_wf. apply H. auto.
  Qed.

  Lemma effective_total : forall (c : cfg) p os n, (1 <= p)%nat -> Forall builtin (c_crit c) -> In (CMaxIt (Some n)) (c_crit c) -> forall fuel i (s : st), wf c s -> plain c (s_N s) -> in_range os s ->
    (n - s_it s <= fuel)%nat -> exists s', opt_loop c (step c) (ess_update (1 / 2) 100000 15) p os fuel i s = Some (Ok s').
  Proof.
    intros c p os n Hp HB Hin. induction fuel; intros i s W G IR Hle; cbn [opt_loop]; destruct (terminate_total c s W HB) as (b & s1 & E); rewrite E.
    - destruct (terminate_spec _ _ _ _ W E) as (_ & Hb & _). assert (b = true) as -> by (apply Hb; intros; eapply meets_maxit; eauto; lia). eauto.
    - destruct b; [eauto|]. assert (Hlt : (s_it s < n)%nat).
      { destruct (le_lt_dec n (s_it s)); auto. exfalso. destruct (terminate_spec _ _ _ _ W E) as (_ & Hb & _).
        assert (false = true); [|discriminate]. apply Hb. intros. eapply meets_maxit; eauto. }
      pose proof (term_frame _ _ _ _ E) as (F1 & F2 & _).
      destruct (ess_iteration c s s1 false (os i) W G E) as (s2 & s3 & E2 & E3 & W3 & M3 & N3 & I3 & A3); [eapply perms_valid_frame; eauto|].
      rewrite E2. cbn [bind]. rewrite E3. cbn [bind]. destruct p; [lia|]. cbn [Nat.eqb].
      apply IHfuel; auto; try lia. { rewrite N3; auto. } intros j; apply (perms_valid_frame _ s); auto.
  Qed.
  Lemma optimize_effective_total : forall (c : cfg) cbx os n fuel (s : st) log pi, exec c s log -> plain c (s_N s) -> in_range os s -> (1 <= match pi with Some p => p | None => s_save s end)%nat ->
    Forall builtin (c_crit c) -> In (CMaxIt (Some n)) (c_crit c) -> (n - s_it s <= fuel)%nat -> exists s', optimize c (step c) cbx pi SEffective os fuel s = Some (Ok (s_bp s', s')).
  Proof.
    intros c cbx os n fuel s log pi E G IR Hp HB HI Hf.
    destruct (effective_total c _ os n Hp HB HI fuel 0 s (exec_wf _ _ _ E) G IR Hf) as (s' & E'). exists s'. unfold optimize. cbn [resolve]. rewrite E'. reflexivity.
  Qed.

  Lemma default_total : forall cbx, total_sched (@default_sched V cbx) /\ param_sched (@default_sched V cbx).
  Proof.
    intros [|]; cbn [default_sched]; split; first [apply scheduler_total|apply scheduler_param]; repeat constructor; try apply multiply_total_sched; apply multiply_param_sched.
  Qed.

  (** ** what optimize leaves is reachable, and what it returns *)
  Lemma standard_params : forall (c : cfg) cbx a (s s' : st) log, standard a -> exec c s log -> resolve cbx a s = Ok s' -> params_changed s s'.
  Proof.
    intros c cbx a s s' log Ha E H. destruct a; cbn [resolve standard] in *.
    - eapply (scheduler_param []); eauto.
    - eapply default_total; eauto.
    - assert (W := exec_wf _ _ _ E). assert (HL : length (s_energy s) = s_M s) by (apply w_e in W; destruct W; auto).
      assert (LA := ess_update_length _ _ _ _ _ _ HL H). assert (PC := ess_frame _ _ _ _ _ H). assert (M1 : / 100000 <= 100000) by lra.
      exists (s_alpha s'), (s_sigma s), (s_lamda s), (s_dt s). split; [|rewrite PC at 1; destruct s; reflexivity]. intros _. split; auto.
      apply Forall_forall. intros r Hr. apply In_nth_error in Hr. destruct Hr as [k Hk]. assert (Hlt : (k < s_M s)%nat) by (rewrite <- LA; apply nth_error_Some; congruence).
      destruct (ess_update_range _ _ _ _ _ _ k r HL M1 H Hlt Hk) as (v & -> & _). reflexivity.
    - auto.
    - contradiction.
  Qed.
  Lemma loop_reach : forall (c : cfg) cbx a p os fuel i (s s' : st) log, standard a -> exec c s log -> in_range os s ->
    opt_loop c (step c) (resolve cbx a) p os fuel i s = Some (Ok s') -> exists log', exec c s' (log ++ log') /\ s_M s' = s_M s /\ s_N s' = s_N s.
  Proof.
    induction fuel; intros i s s' log Ha X IR H; cbn [opt_loop] in H; destruct (terminate c s) as [[[] s1]|] eqn:E; try discriminate H; pose proof (ex_term c _ _ _ _ X E) as X1.
    - injection H as <-. exists []. rewrite app_nil_r. pose proof (term_frame _ _ _ _ E) as (F1 & F2 & _). auto.
    - injection H as <-. exists []. rewrite app_nil_r. pose proof (term_frame _ _ _ _ E) as (F1 & F2 & _). auto.
    - pose proof (term_frame _ _ _ _ E) as (F1 & F2 & _). assert (P1 : perms_valid (os i) s1) by (eapply perms_valid_frame; eauto).
      destruct (step c (os i) s1) as [s2|] eqn:E2; cbn [bind] in H; [|discriminate H]. destruct (resolve cbx a s2) as [s3|] eqn:E3; cbn [bind] in H; [|discriminate H].
      destruct (p =? 0)%nat; [discriminate H|].
      pose proof (ex_step c _ _ _ _ X1 P1 E2) as X2. pose proof (standard_params _ _ _ _ _ _ Ha X2 E3) as PC. pose proof (ex_params c _ _ _ X2 PC) as X3.
      pose proof (step_ok_char c (os i) s1 s2 (exec_wf _ _ _ X1) (perms_valid_ok _ _ P1) E2) as (_ & (M3 & N3 & _) & _). pose proof (params_frame _ _ PC) as (Q1 & Q2 & _).
      destruct (IHfuel _ _ _ _ Ha X3 ltac:(intros j; apply (perms_valid_frame _ s); [congruence|congruence|auto]) H) as (log' & L & M4 & N4). rewrite <- app_assoc in L. eexists. split; [exact L|]. split; congruence.
  Qed.
  Lemma optimize_frame : forall (c : cfg) cbx a pi os fuel (s s' : st) bp log, standard a -> exec c s log -> in_range os s ->
    optimize c (step c) cbx pi a os fuel s = Some (Ok (bp, s')) -> exists log', exec c s' (log ++ log') /\ s_M s' = s_M s /\ s_N s' = s_N s.
  Proof. intros c cbx a pi os fuel s s' bp log Ha X IR H. apply optimize_inv in H. destruct H as [_ H]. eapply loop_reach; eauto. Qed.
  Lemma optimize_returns : forall (c : cfg) cbx a pi os fuel (s s' : st) bp log, no_nan c -> standard a -> exec c s log -> in_range os s ->
    optimize c (step c) cbx pi a os fuel s = Some (Ok (bp, s')) -> exists log', exec c s' (log ++ log') /\ length bp = s_M s /\
      forall m v, nth_error bp m = Some v -> (forall w, In (m, w) (log ++ log') -> c_f c w = PInf) \/
        (In (m, v) (log ++ log') /\ forall w, In (m, w) (log ++ log') -> fleb (c_f c v) (c_f c w) = true).
  Proof.
    intros c cbx a pi os fuel s s' bp log NN Ha X IR H. destruct (optimize_frame _ _ _ _ _ _ _ _ _ _ Ha X IR H) as (log' & X' & HM & _). exists log'. split; auto.
    apply optimize_inv in H. destruct H as [-> _]. assert (W := exec_wf _ _ _ X'). split; [rewrite (w_bp _ _ W); auto|]. intros m v Hv.
    assert (Hm : (m < s_M s')%nat) by (rewrite <- (w_bp _ _ W); apply nth_error_Some; congruence).
    destruct (nth_error (s_be s') m) as [be|] eqn:Eb; [|apply nth_error_None in Eb; rewrite (w_be _ _ W) in Eb; lia].
    destruct (best_is_min c s' _ m be NN X' Eb) as [[_ MIN] _].
    assert (MN : forall w, In (m, w) (log ++ log') -> fleb be (c_f c w) = true).
    { intros w Hw. apply MIN. unfold values_of. apply in_map_iff. exists (m, w). split; auto. apply filter_In. split; auto. apply Nat.eqb_refl. }
    destruct (best_pair c s' _ m be v NN X' Eb Hv) as [-> | [I ->]].
    - left. intros w Hw. specialize (MN w Hw). specialize (NN w). destruct (c_f c w); cbn in *; try discriminate; auto.
    - right. auto.
  Qed.

  (** ** defaults of the termination *)
  Lemma default_term : forall (c : cfg) cbx os n (s : st) log fuel, exec c s log -> (1 <= s_M s)%nat -> plain c (s_N s) -> in_range os s -> c_crit c = init_term None (Some n) ->
    (n - s_it s <= fuel)%nat -> exists s', optimize c (step c) cbx None SDefault os fuel s = Some (Ok (s_bp s', s')) /\ s_it s' = max n (s_it s).
  Proof.
    intros c cbx os n s log fuel E HM G IR HC Hf. assert (W := exec_wf _ _ _ E). rewrite optimize_is_loop by (apply w_save in W; auto). cbn [resolve].
    destruct (default_total cbx) as [T P].
    destruct (maxit_exact c (default_sched cbx) os n fuel 0 s W HM G P T IR HC) as [_ H]. destruct (H Hf) as (s' & -> & I). exists s'. auto.
  Qed.
  Lemma no_term : forall (c : cfg) cbx os (s : st) log fuel, exec c s log -> (1 <= s_M s)%nat -> plain c (s_N s) -> in_range os s -> c_crit c = init_term None None ->
    optimize c (step c) cbx None SDefault os fuel s = None.
  Proof.
    intros c cbx os s log fuel E HM G IR HC. assert (W := exec_wf _ _ _ E). rewrite optimize_is_loop by (apply w_save in W; auto). cbn [resolve].
    destruct (default_total cbx) as [T P]. rewrite nocrit_never_stops; auto.
  Qed.
  Lemma default_run_alpha : forall (c : cfg) os n (s : st) log fuel bp s', exec c s log -> (1 <= s_M s)%nat -> plain c (s_N s) -> in_range os s -> c_crit c = init_term None (Some n) ->
    s_it s = 0%nat -> alphas s (repeat 1 (s_M s)) -> optimize c (step c) true None SDefault os fuel s = Some (Ok (bp, s')) ->
    alphas s' (repeat 100000 (s_M s)) <-> (236 <= n)%nat.
  Proof.
    intros c os n s log fuel bp s' E HM G IR HC I A H.
    assert (s_it s' = n).
    { assert (W := exec_wf _ _ _ E). rewrite optimize_is_loop in H by (apply w_save in W; auto). cbn [resolve] in H.
      destruct (default_total true) as [T P]. destruct (maxit_exact c (default_sched true) os n fuel 0 s W HM G P T IR HC) as [H1 H2].
      destruct (le_lt_dec (n - s_it s) fuel) as [L|L].
      - destruct (H2 L) as (s2 & E2 & I2). rewrite E2 in H. cbn [bind] in H. injection H as _ <-. rewrite I2, I. apply Nat.max_0_r.
      - rewrite (H1 L) in H. discriminate H. }
    destruct (optimize_default _ _ _ _ _ _ _ _ A H) as [_ A']. rewrite <- cap_reached. rewrite H0, I, Nat.sub_0_r in A'.
    unfold alphas in *. rewrite A'. destruct (s_M s) as [|m]; [lia|]. split.
    - intros Q. cbn [repeat map] in Q. injection Q. auto.
    - intros Q. f_equal. rewrite <- Q. generalize (S m). intros k. induction k; cbn [repeat map]; [|rewrite IHk]; auto.
  Qed.

  (** ** CBS *)
  Lemma cbs_rejects : forall (c : cfg) stepf os fuel (s : st) u, cbs_optimize c stepf SEffective os fuel s = Some (Err RuntimeErr) /\
    cbs_optimize c stepf (SUpdate u false) os fuel s = Some (Err RuntimeErr) /\ cbs_optimize c stepf SOther os fuel s = Some (Err RuntimeErr).
  Proof. repeat split. Qed.
  Lemma cbs_accepts : forall (c : cfg) stepf os fuel (s : st) u, cbs_optimize c stepf SDefault os fuel s = cbs_optimize c stepf SNone os fuel s /\
    cbs_optimize c stepf (SUpdate u true) os fuel s = optimize_loop c stepf u os fuel 0 s.
  Proof. repeat split. Qed.
End F.
