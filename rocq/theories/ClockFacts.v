(** * Time and max_time in any arithmetic *)
From Coq Require Import String List Arith Bool Lia Reals Lra Psatz.
From Verif Require Import Scalar ScalarFacts Np NpFacts State Pdyn PdynFacts PdynStep PdynRun Exec PdynOk TermSpec TermFacts RunFacts RFacts ClockSpec.
Import ListNotations.
Open Scope nat_scope.
Open Scope list_scope.

Section Clock.
  Context {K V : Type} {O : KOps K}.
  Notation st := (st K V).
  Notation cfg := (cfg K V).
  Notation orc := (orc V).

  Lemma clock_iter : forall (c : cfg) s b s2 (o : orc) s3 sched s4 t d, wf c s -> param_sched sched -> leaves_dt sched ->
    terminate c s = Ok (b, s2) -> perms_valid o s2 -> step c o s2 = Ok s3 -> sched s3 = Ok s4 -> s_t s = Fin t -> s_dt s = Fin d ->
    wf c s4 /\ s_it s4 = S (s_it s) /\ s_t s4 = Fin (kadd t d) /\ s_dt s4 = Fin d /\ s_M s4 = s_M s /\ s_N s4 = s_N s.
  Proof.
    intros c s b s2 o s3 sched s4 t d W PS KD HT P HS H4 Ht Hd.
    pose proof (terminate_wf _ _ _ _ HT W) as W2. pose proof (term_frame _ _ _ _ HT) as (F1 & F2 & F3 & F4 & F5 & _).
    destruct (step_ok_char c o s2 s3 W2 (perms_valid_ok _ _ P) HS) as (W3 & (M3 & N3 & _ & _ & _ & D3 & T3 & I3 & _) & _).
    pose proof (PS _ _ H4) as PC. pose proof (params_frame _ _ PC) as (P1 & P2 & P3 & P4 & _).
    split. { eapply params_wf; eauto. }
    repeat split; try congruence.
    - rewrite P4, T3, F4, F5, Ht, Hd. reflexivity.
    - rewrite (KD _ _ H4). congruence.
  Qed.
  Lemma clock_only : forall (c : cfg) s T t m, c_crit c = [CMaxTime (Fin T)] -> s_t s = Fin t -> meets_some c s m = negb (kltb t T).
  Proof. intros. unfold meets_some. rewrite H. cbn [existsb]. rewrite orb_false_r. cbn [holds]. rewrite H0. reflexivity. Qed.
  Lemma ticks_front : forall n (t d : K), ticks (kadd t d) d n = ticks t d (S n).
  Proof. induction n; intros; auto. cbn [ticks] in *. rewrite IHn. auto. Qed.

  Theorem clock_exact : forall (c : cfg) sched os T d fuel i s log t n, exec c s log -> 1 <= s_M s -> plain c (s_N s) -> param_sched sched -> total_sched sched -> leaves_dt sched -> in_range os s ->
    c_crit c = [CMaxTime (Fin T)] -> s_t s = Fin t -> s_dt s = Fin d -> kltb (ticks t d n) T = false -> (forall k, k < n -> kltb (ticks t d k) T = true) ->
    (fuel < n -> optimize_loop c (step c) sched os fuel i s = None) /\
    (n <= fuel -> exists s', optimize_loop c (step c) sched os fuel i s = Some (Ok s') /\ s_it s' = s_it s + n /\ s_t s' = Fin (ticks t d n)).
  Proof.
    intros c sched os T d fuel i s log t n EX. pose proof (exec_wf _ _ _ EX) as W. clear EX log. revert i s t n W.
    induction fuel; intros i s t n W HM G PS TS KD IR HC Ht Hd Hn Hlt.
    - assert (HB : Forall builtin (c_crit c)) by (rewrite HC; repeat constructor).
      cbn [optimize_loop]. destruct (terminate_total c s W HB) as (b & s' & E). rewrite E. destruct (terminate_spec _ _ _ _ W E) as (_ & Hb & _). split; intros Hf.
      + destruct b; auto. exfalso. assert (Hm : meets_some c s 0 = true) by (apply Hb; auto; lia). rewrite (clock_only c s T t) in Hm; auto. specialize (Hlt 0 Hf). cbn in Hlt. rewrite Hlt in Hm. discriminate.
      + assert (n = 0) by lia. subst n. assert (b = true) as ->. { apply Hb. intros. rewrite (clock_only c s T t); auto. cbn in Hn. rewrite Hn. auto. }
        exists s'. split; auto. destruct (term_frame _ _ _ _ E) as (_ & _ & -> & -> & _). split; [lia|auto].
    - assert (HB : Forall builtin (c_crit c)) by (rewrite HC; repeat constructor).
      cbn [optimize_loop]. destruct (terminate_total c s W HB) as (b & s2 & E). rewrite E. destruct (terminate_spec _ _ _ _ W E) as (_ & Hb & _). destruct b.
      + assert (Hm : meets_some c s 0 = true) by (apply Hb; auto; lia). rewrite (clock_only c s T t) in Hm; auto.
        assert (n = 0). { destruct n; auto. exfalso. specialize (Hlt 0 ltac:(lia)). cbn in Hlt. rewrite Hlt in Hm. discriminate. }
        subst n. split; [lia|]. intros _. exists s2. split; auto. destruct (term_frame _ _ _ _ E) as (_ & _ & -> & -> & _). split; [lia|auto].
      + assert (Hlt0 : kltb t T = true). { destruct (kltb t T) eqn:Q; auto. assert (false = true); [|discriminate]. apply Hb. intros. rewrite (clock_only c s T t); auto. rewrite Q; auto. }
        destruct n as [|n]. { cbn in Hn. congruence. }
        pose proof (term_frame _ _ _ _ E) as (F1 & F2 & _). destruct (iteration c sched s false s2 (os i)) as (s3 & s4 & E3 & E4 & _); auto. { eapply perms_valid_frame; eauto. }
        destruct (clock_iter c s false s2 (os i) s3 sched s4 t d) as (W4 & I4 & T4 & D4 & M4 & N4); auto. { eapply perms_valid_frame; eauto. }
        rewrite E3. cbn [bind]. rewrite E4. destruct (IHfuel (S i) s4 (kadd t d) n) as (H1 & H2); auto; try lia.
        { rewrite N4; auto. } { intros j. apply (perms_valid_frame _ s); auto. } { rewrite ticks_front. auto. } { intros k Hk. rewrite ticks_front. apply Hlt. lia. }
        split; intros Hf. { apply H1. lia. } destruct H2 as (s' & E' & A & B); [lia|]. exists s'. split; auto. split; [lia|]. rewrite B, ticks_front. auto.
  Qed.
  Theorem clock_never : forall (c : cfg) sched os T d i s log t, exec c s log -> 1 <= s_M s -> plain c (s_N s) -> param_sched sched -> total_sched sched -> leaves_dt sched -> in_range os s ->
    c_crit c = [CMaxTime (Fin T)] -> s_t s = Fin t -> s_dt s = Fin d -> (forall k, kltb (ticks t d k) T = true) -> forall fuel, optimize_loop c (step c) sched os fuel i s = None.
  Proof.
    intros c sched os T d i s log t EX HM G PS TS KD IR HC Ht Hd Hlt fuel. pose proof (exec_wf _ _ _ EX) as W. clear EX log. revert i s t W HM G IR Ht Hd Hlt.
    induction fuel; intros i s t W HM G IR Ht Hd Hlt; assert (HB : Forall builtin (c_crit c)) by (rewrite HC; repeat constructor);
      cbn [optimize_loop]; destruct (terminate_total c s W HB) as (b & s2 & E); rewrite E; destruct (terminate_spec _ _ _ _ W E) as (_ & Hb & _);
      (assert (b = false) as ->; [destruct b; auto; assert (Hm : meets_some c s 0 = true) by (apply Hb; auto; lia); rewrite (clock_only c s T t) in Hm by auto; specialize (Hlt 0); cbn in Hlt; rewrite Hlt in Hm; discriminate|]); auto.
    pose proof (term_frame _ _ _ _ E) as (F1 & F2 & _). destruct (iteration c sched s false s2 (os i)) as (s3 & s4 & E3 & E4 & _); auto. { eapply perms_valid_frame; eauto. }
    destruct (clock_iter c s false s2 (os i) s3 sched s4 t d) as (W4 & I4 & T4 & D4 & M4 & N4); auto. { eapply perms_valid_frame; eauto. }
    rewrite E3. cbn [bind]. rewrite E4. apply (IHfuel (S i) s4 (kadd t d)); auto; try lia.
    { rewrite N4; auto. } { intros j. apply (perms_valid_frame _ s); auto. } { intros k. rewrite ticks_front. apply Hlt. }
  Qed.
End Clock.

Open Scope R_scope.
Lemma ticks_err : forall rnd u eta d n, (forall x, Rabs (rnd x - x) <= u * Rabs x + eta) -> 0 <= u -> 0 <= eta -> 0 < d -> u * INR n * INR (S n) <= / 8 -> INR n * eta <= d / 8 ->
  Rabs (@ticks R (KOps_rounded rnd) 0 d n - INR n * d) <= u * d * INR n * INR (S n) + INR n * eta.
Proof.
  intros rnd u eta d n HR Hu He Hd. induction n as [|n IH]; intros Q1 Q2.
  - cbn. replace (0 - 0 * d) with 0 by ring. rewrite Rabs_R0. lra.
  - rewrite !S_INR in *. pose proof (pos_INR n) as P. set (k := INR n) in *.
    assert (U1 : 0 <= u * k) by (apply Rmult_le_pos; auto). assert (Q1' : u * k * (k + 1) <= / 8) by nra. assert (Q2' : k * eta <= d / 8) by nra. specialize (IH Q1' Q2').
    cbn [ticks kadd KOps_rounded]. set (t := @ticks R (KOps_rounded rnd) 0 d n) in *. specialize (HR (t + d)).
    assert (E4 : Rabs (t - k * d) <= d / 4). { eapply Rle_trans; [exact IH|]. assert (u * k * (k + 1) * d <= / 8 * d) by (apply Rmult_le_compat_r; lra). lra. }
    assert (TD : Rabs (t + d) <= (k + 1) * d + d / 4). { replace (t + d) with ((t - k * d) + (k + 1) * d) by ring. eapply Rle_trans; [apply Rabs_triang|]. rewrite (Rabs_right ((k + 1) * d)) by nra. lra. }
    apply (Rmult_le_compat_l u) in TD; auto.
    replace (rnd (t + d) - (k + 1) * d) with ((rnd (t + d) - (t + d)) + (t - k * d)) by ring. eapply Rle_trans; [apply Rabs_triang|].
    assert (0 <= u * d) by nra. assert (0 <= u * d * k) by (apply Rmult_le_pos; auto). lra.
Qed.

(** the number of steps is off by at most one *)
Theorem clock_rounded : forall rnd u eta d T n0, (forall x, Rabs (rnd x - x) <= u * Rabs x + eta) -> 0 <= u -> 0 <= eta -> 0 < d -> 0 < T ->
  T <= INR n0 * d -> (INR n0 - 1) * d < T -> u * INR (S n0) * INR (S (S n0)) <= / 8 -> INR (S n0) * eta <= d / 8 ->
  exists n, (n0 <= S n)%nat /\ (n <= S n0)%nat /\ T <= @ticks R (KOps_rounded rnd) 0 d n /\ forall k, (k < n)%nat -> @ticks R (KOps_rounded rnd) 0 d k < T.
Proof.
  intros rnd u eta d T n0 HR Hu He Hd HT H1 H2 Q1 Q2. set (tk := @ticks R (KOps_rounded rnd) 0 d).
  assert (ER : forall n, (n <= S n0)%nat -> Rabs (tk n - INR n * d) <= d / 4).
  { intros n Hn. apply le_INR in Hn as Hn'. pose proof (pos_INR n). assert (Q1' : u * INR n * INR (S n) <= / 8).
    { eapply Rle_trans; [|exact Q1]. assert (INR (S n) <= INR (S (S n0))) by (apply le_INR; lia). pose proof (pos_INR (S n)). apply Rmult_le_compat; auto; [apply Rmult_le_pos; auto|apply Rmult_le_compat_l; auto]. }
    assert (Q2' : INR n * eta <= d / 8) by (eapply Rle_trans; [|exact Q2]; apply Rmult_le_compat_r; auto).
    pose proof (ticks_err rnd u eta d n HR Hu He Hd Q1' Q2') as E. fold tk in E. eapply Rle_trans; [exact E|].
    assert (u * INR n * INR (S n) * d <= / 8 * d) by (apply Rmult_le_compat_r; lra). lra. }
  assert (HI : T <= tk (S n0)). { specialize (ER (S n0) (le_n _)). rewrite S_INR in ER. unfold Rabs in ER. destruct (Rcase_abs _); lra. }
  assert (L : exists n, (n <= S n0)%nat /\ T <= tk n /\ forall k, (k < n)%nat -> tk k < T).
  { clear - HI. revert HI. generalize (S n0) as m. intros m. induction m as [|m IH]; intros HI; [exists 0%nat; split; auto; split; auto; intros; lia|].
    destruct (Rle_lt_dec T (tk m)) as [Q|Q].
    - destruct (IH Q) as (n & A & B & C). exists n. split; auto.
    - assert (M : exists n, (n <= S m)%nat /\ T <= tk n /\ forall k, (k < n)%nat -> tk k < T); [|exact M].
      assert (D : (exists j, (j <= m)%nat /\ T <= tk j) \/ forall j, (j <= m)%nat -> tk j < T).
      { clear. induction m as [|m [[j [A B]]|IH]].
        - destruct (Rle_lt_dec T (tk 0%nat)); [left; exists 0%nat; auto|right; intros j Hj; assert (j = 0%nat) by lia; subst; auto].
        - left. exists j. split; auto.
        - destruct (Rle_lt_dec T (tk (S m))); [left; exists (S m); auto|]. right. intros j Hj. destruct (Nat.eq_dec j (S m)); [subst; auto|apply IH; lia]. }
      destruct D as [[j [A B]]|D].
      + assert (W : exists n, (n <= j)%nat /\ T <= tk n /\ forall k, (k < n)%nat -> tk k < T).
        { clear - B. revert B. induction j as [j IH] using lt_wf_ind. intros B.
          assert (D : (exists i, (i < j)%nat /\ T <= tk i) \/ forall i, (i < j)%nat -> tk i < T).
          { clear. induction j as [|j [[i [A B]]|IH]]; [right; intros; lia|left; exists i; split; auto|].
            destruct (Rle_lt_dec T (tk j)); [left; exists j; auto|]. right. intros i Hi. destruct (Nat.eq_dec i j); [subst; auto|apply IH; lia]. }
          destruct D as [[i [A B']]|D]; [|exists j; auto]. destruct (IH i A B') as (n & C1 & C2). exists n. split; [lia|auto]. }
        destruct W as (n & W1 & W2). exists n. split; [lia|auto].
      + exists (S m). split; auto. split; auto. intros k Hk. apply D. lia. }
  destruct L as (n & L1 & L2 & L3). exists n. split; [|split; auto].
  specialize (ER n L1). destruct (le_lt_dec n0 (S n)) as [|C]; auto. exfalso.
  assert (INR n + 2 <= INR n0) by (replace 2 with (INR 2) by (cbn; lra); rewrite <- plus_INR; apply le_INR; lia).
  unfold Rabs in ER. destruct (Rcase_abs _); nra.
Qed.

Theorem clock_rounded_run : forall V rnd u eta, (forall x, Rabs (rnd x - x) <= u * Rabs x + eta) -> 0 <= u -> 0 <= eta ->
  let O := KOps_rounded rnd in forall (c : cfg R V) sched os i s log d T n0, exec c s log -> (1 <= s_M s)%nat -> plain c (s_N s) -> param_sched sched -> total_sched sched -> leaves_dt sched -> in_range os s ->
  c_crit c = [CMaxTime (Fin T)] -> s_t s = Fin 0 -> s_dt s = Fin d -> 0 < d -> 0 < T -> T <= INR n0 * d -> (INR n0 - 1) * d < T ->
  u * INR (S n0) * INR (S (S n0)) <= / 8 -> INR (S n0) * eta <= d / 8 ->
  exists n, (n0 <= S n)%nat /\ (n <= S n0)%nat /\ forall fuel, ((fuel < n)%nat -> optimize_loop c (step c) sched os fuel i s = None) /\
    ((n <= fuel)%nat -> exists s', optimize_loop c (step c) sched os fuel i s = Some (Ok s') /\ s_it s' = (s_it s + n)%nat).
Proof.
  intros V rnd u eta HR Hu He O c sched os i s log d T n0 EX HM HP PS TS LD IR HC Ht Hd D0 T0 H1 H2 Q1 Q2.
  destruct (clock_rounded rnd u eta d T n0 HR Hu He D0 T0 H1 H2 Q1 Q2) as (n & A & B & C & D). exists n. split; auto. split; auto. intros fuel.
  assert (K1 : kltb (ticks 0 d n) T = false) by (apply Rltb_false; exact C).
  assert (K2 : forall k, (k < n)%nat -> kltb (ticks 0 d k) T = true) by (intros k Hk; apply Rltb_true, D; auto).
  destruct (clock_exact c sched os T d fuel i s log 0 n EX HM HP PS TS LD IR HC Ht Hd K1 K2) as [E F]. split; auto.
  intros Hf. destruct (F Hf) as (s' & G1 & G2 & _). exists s'. auto.
Qed.
