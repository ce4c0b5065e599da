(** * Cases for the arguments of optimize *)
From Coq Require Import String List Arith Bool Reals Lra Lia.
From Verif Require Import Scalar Np State Pdyn PdynOk Exec TermSpec TermFacts RunFacts PostProc Script ExR Sched Optimize OptimizeSpec OptimizeFacts.
Import ListNotations.
Open Scope R_scope.
Open Scope list_scope.

(** two runs of three particles, batches of two, criterion max_it = n alone *)
Definition ocfg (n : option nat) := rcfg 2 (fun v => v) (init_term None n).
Lemma ocase : forall n, exists s, exec (ocfg n) s [] /\ (1 <= s_M s)%nat /\ s_M s = 2%nat /\ plain (ocfg n) (s_N s) /\ in_range (fun _ => rorc) s /\ s_it s = 0%nat /\ alphas s (repeat 1 (s_M s)).
Proof.
  intros n. destruct (rinit_ok 2 (fun v => v) (init_term None n)) as (s & I & E & M & N & _ & _ & It & G & P); [lia|].
  exists s. split; auto. split; [lia|]. split; auto. split; auto. split; [intros i; auto|]. split; auto.
  assert (A : s_alpha s = [[Fin 1]; [Fin 1]]) by (injection I as <-; reflexivity). unfold alphas. rewrite A, M. reflexivity.
Qed.
(** three steps of the default schedule *)
Lemma odefault : exists s s', exec (ocfg (Some 3%nat)) s [] /\ optimize (ocfg (Some 3%nat)) (step (ocfg (Some 3%nat))) true None SDefault (fun _ => rorc) 3 s = Some (Ok (s_bp s', s')) /\
  s_it s' = 3%nat /\ alphas s' [(21 / 20) ^ 3; (21 / 20) ^ 3].
Proof.
  destruct (ocase (Some 3%nat)) as (s & E & HM & M2 & G & IR & I & A).
  destruct (default_term (ocfg (Some 3%nat)) true (fun _ => rorc) 3 s [] 3 E HM G IR eq_refl) as (s' & H & I'); [lia|].
  exists s, s'. split; auto. split; auto. rewrite I in I'. split; auto.
  destruct (optimize_default _ _ _ _ _ _ _ _ A H) as [_ B]. rewrite I, I', M2 in B. cbn [repeat map scheduled Nat.sub Nat.max] in B.
  rewrite Rmult_1_r, Rmin_right in B by (cbn; lra). exact B.
Qed.
Lemma oeffective : exists s s', exec (ocfg (Some 3%nat)) s [] /\ optimize (ocfg (Some 3%nat)) (step (ocfg (Some 3%nat))) true (Some 2%nat) SEffective (fun _ => rorc) 3 s = Some (Ok (s_bp s', s')).
Proof.
  destruct (ocase (Some 3%nat)) as (s & E & HM & M2 & G & IR & I & A).
  destruct (optimize_effective_total (ocfg (Some 3%nat)) true (fun _ => rorc) 3 3 s [] (Some 2%nat) E G IR) as (s' & H); [lia|repeat constructor|left; auto|lia|]. exists s, s'. auto.
Qed.
(** a state in which the loop is entered, and one in which it is not *)
Lemma oenter : exists s s1 s2, exec (ocfg (Some 3%nat)) s [] /\ terminate (ocfg (Some 3%nat)) s = Ok (false, s1) /\ step (ocfg (Some 3%nat)) rorc s1 = Ok s2.
Proof.
  destruct (ocase (Some 3%nat)) as (s & E & HM & M2 & G & IR & I & A).
  destruct (terminate_total (ocfg (Some 3%nat)) s (exec_wf _ _ _ E)) as (b & s1 & T); [repeat constructor|].
  assert (b = false).
  { destruct b; auto. destruct (terminate_spec _ _ _ _ (exec_wf _ _ _ E) T) as (_ & Hb & _). destruct Hb as [Hb _]. specialize (Hb eq_refl 0%nat ltac:(lia)).
    unfold meets_some in Hb. cbn in Hb. rewrite I in Hb. discriminate Hb. }
  subst b. destruct (iteration (ocfg (Some 3%nat)) (default_sched true) s false s1 rorc (exec_wf _ _ _ E) G) as (s3 & s4 & E3 & _); try apply default_total; auto.
  { eapply perms_valid_frame; [| |apply (IR 0%nat)]; apply (term_frame _ _ _ _ T). }
  exists s, s1, s3. auto.
Qed.
Lemma ofinished : exists s s1, exec (ocfg (Some 0%nat)) s [] /\ terminate (ocfg (Some 0%nat)) s = Ok (true, s1).
Proof.
  destruct (ocase (Some 0%nat)) as (s & E & HM & M2 & G & IR & I & A).
  destruct (terminate_total (ocfg (Some 0%nat)) s (exec_wf _ _ _ E)) as (b & s1 & T); [repeat constructor|].
  assert (b = true). { destruct (terminate_spec _ _ _ _ (exec_wf _ _ _ E) T) as (_ & Hb & _). apply Hb. intros. eapply meets_maxit; [left; reflexivity|lia]. }
  subst. eauto.
Qed.
(** two calls with a reset between them: six steps altogether *)
Lemma otwice : exists s s2, exec (ocfg (Some 3%nat)) s [] /\ alphas s [1; 1] /\ calls (ocfg (Some 3%nat)) 6 s s2 /\ s_it s2 = 3%nat /\ alphas s2 [(21 / 20) ^ 6; (21 / 20) ^ 6].
Proof.
  destruct (ocase (Some 3%nat)) as (s & E & HM & M2 & G & IR & I & A). rewrite M2 in A. cbn [repeat] in A.
  destruct (default_term (ocfg (Some 3%nat)) true (fun _ => rorc) 3 s [] 3 E HM G IR eq_refl) as (s1 & H1 & I1); [lia|]. rewrite I in I1. cbn in I1.
  destruct (optimize_frame _ _ _ _ _ _ _ _ _ _ (Logic.I : standard SDefault) E IR H1) as (log1 & E1 & M1 & N1).
  pose proof (ex_reset _ _ _ E1) as E2. assert (F : s_M (reset s1) = s_M s1 /\ s_N (reset s1) = s_N s1 /\ s_it (reset s1) = 0%nat) by (destruct s1; repeat split). destruct F as (F1 & F2 & F3).
  assert (IR2 : in_range (fun _ => rorc) (reset s1)) by (intros j; apply (perms_valid_frame _ s); [congruence|congruence|apply (IR j)]).
  assert (G2 : plain (ocfg (Some 3%nat)) (s_N (reset s1))) by (rewrite F2, N1; exact G). assert (HM2 : (1 <= s_M (reset s1))%nat) by (rewrite F1, M1; exact HM).
  destruct (default_term (ocfg (Some 3%nat)) true (fun _ => rorc) 3 (reset s1) _ 3 E2 HM2 G2 IR2 eq_refl) as (s2 & H2 & I2); [lia|].
  rewrite F3 in I2. cbn in I2.
  assert (C : calls (ocfg (Some 3%nat)) 6 s s2).
  { replace 6%nat with (0 + (s_it s1 - s_it s) + (s_it s2 - s_it (reset s1)))%nat by lia.
    eapply ca_opt; [apply ca_reset; eapply ca_opt; [apply ca_none|exact H1]|exact H2]. }
  exists s, s2. split; auto. split; auto. split; auto. split; auto. pose proof (calls_alpha _ _ _ _ _ A C) as B. cbn [map scheduled] in B.
  rewrite Rmult_1_r, Rmin_right in B by (cbn; lra). exact B.
Qed.
