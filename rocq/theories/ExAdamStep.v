(** * AdamCBO: two particles at 0 and 2, consensus 1 *)
From Coq Require Import String List Arith Bool Permutation Lia Reals Lra.
From Verif Require Import Scalar ScalarFacts RFacts Np NpFacts State Pdyn PdynFacts PdynStep PdynRun PdynOk Exec Script
  Memory MemSpec Variant VarSpec VarFacts VarMove RVec RVecFacts Consensus ConsSpec ConsFacts Cbo CboSpec CboFacts AdamSpec AdamFacts AdamR AdamStepSpec AdamStep ExAdam.
Import ListNotations.
Open Scope nat_scope.
Open Scope list_scope.

Definition jinit (la : R) : res (st R vec) := init ac ax0 false (Fin 0%R) (Fin 0%R) (Fin la) (Fin 1%R) (fun _ => [0; 1]) None [] None.
Definition jpr : apar := mkapar (Fin (/ 2)%R) (Fin (/ 2)%R) (Fin 1%R).
Notation jinner := (adam_inner np_sq np_quot jpr).

Lemma jhalf : (0 <= / 2 < 1)%R. Proof. lra. Qed.
Lemma jone : (0 < 1)%R. Proof. lra. Qed.

Record begun (la : R) (s : st R vec) (X : list (list R)) (m v : arr vec) (D : nat -> nat -> list vec) : Prop := {
  bg_exec : adam_exec jinner aattr ac (s, (m, v)) D; bg_x : s_x s = [map floats X];
  bg_M : s_M s = 1; bg_N : s_N s = 2; bg_act : s_active s = [0]; bg_al : s_alpha s = [[Fin 0%R]];
  bg_par : parameters la 1 0 s }.

Lemma jstart : forall la, exists s, jinit la = Ok s /\ begun la s [[0%R]; [2%R]] (fst (aattr s)) (snd (aattr s)) (fun _ _ => []) /\ s_it s = 0.
Proof.
  intros la. eexists. split; [reflexivity|]. split; [|reflexivity]. constructor; try reflexivity.
  - apply (ax_init jinner aattr ac).
    exists ax0, false, (Fin 0%R), (Fin 0%R), (Fin la), (Fin 1%R), (fun _ => [0; 1]), None, [], None.
    split; [split; [reflexivity|repeat constructor]|]. split; [cbn; lia|]. split; [cbn; lia|].
    split; [|split; [discriminate|reflexivity]]. intros m _. apply (perm_b_ok 2). reflexivity.
  - repeat split; try reflexivity. lra.
Qed.

Lemma jdraws : finite_draws 1 aorc.
Proof. intros k n. exists [0%R]. auto. Qed.

Lemma jsel : forall s : st R vec, s_N s = 2 -> run_sel ac aorc s 0 = [0; 1] /\ run_selp ac aorc s 0 = [0; 1].
Proof. intros s H. split. { unfold run_sel. rewrite H. reflexivity. } rewrite full_sel by (apply afull; auto). rewrite H. reflexivity. Qed.

Lemma jcons1 : cc_default [Fin 0%R; Fin 0%R] [floats [1%R]; floats [1%R]] (Fin 0%R) = [floats [1%R]].
Proof.
  assert (HA : admissible 0 [Fin 0%R; Fin 0%R]). { split. { intros e He. left. destruct He as [<-|[<-|[]]]; eauto. } exists 0%R. cbn. auto. }
  assert (HE : ensemble 2 1 [[1%R]; [1%R]]). { split; auto. intros p [<-|[<-|[]]]; auto. }
  change [floats [1%R]; floats [1%R]] with (map floats [[1%R]; [1%R]]).
  rewrite (consensus_gibbs 0 _ 1 _ HA HE). rewrite (alpha_zero _ 1 _ HA HE). cbn. do 3 f_equal. unfold coord; cbn; lra.
Qed.

(** lamda = 2, eps = 1: the first step takes both particles to the consensus point 1 … *)
Lemma jfirst : exists s m v D s' m' v', begun 2 s [[0%R]; [2%R]] m v D /\ (forall r n, D r n = []) /\ s_it s = 0 /\
  vstep jinner ac aorc (s, (m, v)) = Ok (s', (m', v')) /\
  begun 2 s' [[1%R]; [1%R]] m' v' (fun a b => D a b ++ drift_at s s' a b) /\ drift_at s s' 0 0 = [floats [(-1)%R]].
Proof.
  destruct (jstart 2) as (s & _ & B & Hit). remember (fst (aattr s)) as m. remember (snd (aattr s)) as v. remember (fun _ _ : nat => @nil vec) as D.
  destruct B as [HE Hx HM HN Ha Hal Hp].
  destruct (adam_inv _ _ _ _ _ _ _ _ _ _ _ _ _ _ _ _ _ HE) as (W & Rm & Rv).
  assert (C1 : one_consensus_point ac) by (intros e x a; reflexivity).
  assert (HA : s_active s <> []) by (rewrite Ha; discriminate).
  destruct (adam_step_ok np_sq np_quot jpr ac aorc s m v W (aperm s HN) C1 HA Rm Rv) as ([s' [m' v']] & HS).
  pose proof (ax_step _ _ _ _ _ _ _ _ _ HE (aperm s HN) HA HS) as HE'.
  destruct (vstep_good _ _ _ (adam_regular np_sq np_quot jpr) ac aorc s (m, v) s' (m', v') I W (perms_valid_ok _ _ (aperm s HN)) HA (conj Rm Rv) HS) as [GS _].
  destruct GS as (W' & (EM & EN & E3 & E4 & E5 & E6 & E7 & E8 & E9 & _) & _).
  destruct (jsel s HN) as [Es Ep].
  assert (Hcell : forall n x, n < 2 -> nth_error [0; 2]%R n = Some x -> (x - 1 = 1 \/ x - 1 = -1)%R -> cell (s_x s') 0 n = Some (floats [1%R]) /\ drift_at s s' 0 n = [floats [x - 1]%R]).
  { intros n x Hn Ex Hx1.
    assert (Hcx : cell (s_x s) 0 n = Some (floats [x])).
    { rewrite Hx. unfold cell. cbn [nth_error map]. destruct n as [|[|n]]; [| |lia]; cbn in Ex; injection Ex as <-; reflexivity. }
    assert (I1 : In 0 (s_active s)) by (rewrite Ha; cbn; auto).
    assert (I2 : In n (run_selp ac aorc s 0)) by (rewrite Ep; destruct n as [|[|n]]; cbn; auto; lia).
    assert (R0 : 0 < s_M s) by lia. assert (N0 : n < s_N s) by lia.
    assert (E1 : nth_error (s_x s) 0 = Some (map floats [[0%R]; [2%R]])) by (rewrite Hx; reflexivity).
    assert (E2 : nth_error (s_alpha s) 0 = Some [Fin 0%R]) by (rewrite Hal; reflexivity).
    assert (ET : takeM (map floats [[0%R]; [2%R]]) (run_sel ac aorc s 0) = Ok (map floats [[0%R]; [2%R]])) by (rewrite Es; reflexivity).
    split.
    - destruct (adam_first _ _ _ _ _ _ _ _ _ (/ 2) (/ 2) 1 1 jhalf jhalf jone 2 1 0 aorc s m v s' m' v' D 0 n [x] _ _ _ [1%R] HE (aperm s HN) HS R0 N0 Hp jdraws Hcx eq_refl I1 I2 E1 E2 ET acons eq_refl Hit) as (j & i & z & x1 & _ & _ & _ & L1 & Q1 & Q2).
      { rewrite HeqD. reflexivity. }
      destruct (one_floats _ L1) as [a ->]. rewrite Q1. do 2 f_equal. specialize (Q2 0 (Nat.lt_0_succ 0)). unfold coord in Q2. cbn [nth] in Q2. f_equal. rewrite Q2.
      rewrite Rmult_0_l. destruct Hx1 as [H|H]; rewrite H; [rewrite Rabs_R1; replace (1 + 1)%R with 2%R by ring | rewrite Rabs_left by lra; replace (- -1 + 1)%R with 2%R by ring]; lra.
    - exact (drift_is _ _ _ _ _ _ _ _ _ (/ 2) (/ 2) 1 1 aorc s m v s' m' v' D 0 n [x] _ _ _ [1%R] HE (aperm s HN) HA HS N0 Hcx I1 I2 E1 E2 ET acons). }
  destruct (Hcell 0 0%R) as [C0 D0]; [lia|reflexivity|lra|].
  destruct (Hcell 1 2%R) as [C1' D1]; [lia|reflexivity|lra|].
  exists s, m, v, D, s', m', v'. split; [constructor; auto|]. split; [rewrite HeqD; auto|]. split; auto. split; auto. split.
  - constructor; try congruence.
    + pose proof (w_x _ _ W') as Rx. rewrite EM, EN, HM, HN in Rx. destruct Rx as [R1 R2].
      destruct (s_x s') as [|row [|]] eqn:Ex; try discriminate. pose proof (R2 0 row eq_refl) as R3.
      destruct row as [|p0 [|p1 [|]]]; try discriminate. cbn in C0, C1'. injection C0 as ->. injection C1' as ->. reflexivity.
    + destruct Hp as (P1 & P2 & P3 & P4). repeat split; congruence.
  - rewrite D0. do 3 f_equal. lra.
Qed.

Lemma jnext : forall la s X m v D, begun la s X m v D -> exists s' m' v', vstep jinner ac aorc (s, (m, v)) = Ok (s', (m', v')).
Proof.
  intros la s X m v D [HE Hx HM HN Ha Hal Hp].
  destruct (adam_inv _ _ _ _ _ _ _ _ _ _ _ _ _ _ _ _ _ HE) as (W & Rm & Rv).
  assert (C1 : one_consensus_point ac) by (intros e x a; reflexivity).
  assert (HA : s_active s <> []) by (rewrite Ha; discriminate).
  destruct (adam_step_ok np_sq np_quot jpr ac aorc s m v W (aperm s HN) C1 HA Rm Rv) as ([s' [m' v']] & HS). eauto.
Qed.

Open Scope R_scope.
Lemma jcase : forall la x y s m v D s' m' v', begun la s [[x]; [y]] m v D -> vstep jinner ac aorc (s, (m, v)) = Ok (s', (m', v')) ->
  cc_default [Fin 0; Fin 0] (map floats [[x]; [y]]) (Fin 0) = [floats [1]] ->
  adam_exec jinner aattr ac (s, (m, v)) D /\ perms_valid aorc s /\
  vstep jinner ac aorc (s, (m, v)) = Ok (s', (m', v')) /\ (0 < s_M s)%nat /\ (0 < s_N s)%nat /\ parameters la 1 0 s /\ finite_draws 1 aorc /\
  cell (s_x s) 0 0 = Some (floats [x]) /\ In 0%nat (s_active s) /\ In 0%nat (run_selp ac aorc s 0) /\
  nth_error (s_x s) 0 = Some (map floats [[x]; [y]]) /\ nth_error (s_alpha s) 0 = Some [Fin 0] /\
  takeM (map floats [[x]; [y]]) (run_sel ac aorc s 0) = Ok (map floats [[x]; [y]]) /\
  cc_default (map (fun _ => Fin 0) (map floats [[x]; [y]])) (map floats [[x]; [y]]) (Fin 0) = [floats [1]] /\
  drift_at s s' 0 0 = [floats [x - 1]].
Proof.
  intros la x y s m v D s' m' v' B HS HC. destruct B as [HE Hx HM HN Ha Hal Hp]. destruct (jsel s HN) as [Es Ep].
  assert (HA : s_active s <> []) by (rewrite Ha; discriminate).
  assert (Hcx : cell (s_x s) 0 0 = Some (floats [x])) by (rewrite Hx; reflexivity).
  assert (I1 : In 0%nat (s_active s)) by (rewrite Ha; cbn; auto).
  assert (I2 : In 0%nat (run_selp ac aorc s 0)) by (rewrite Ep; cbn; auto).
  assert (E1 : nth_error (s_x s) 0 = Some (map floats [[x]; [y]])) by (rewrite Hx; reflexivity).
  assert (E2 : nth_error (s_alpha s) 0 = Some [Fin 0]) by (rewrite Hal; reflexivity).
  assert (ET : takeM (map floats [[x]; [y]]) (run_sel ac aorc s 0) = Ok (map floats [[x]; [y]])) by (rewrite Es; reflexivity).
  assert (N0 : (0 < s_N s)%nat) by lia.
  split; auto. split; [apply aperm; auto|]. split; auto. split; [lia|]. split; [lia|]. split; auto. split; [exact jdraws|].
  do 6 (split; [assumption|]). split; [exact HC|].
  exact (drift_is _ _ _ _ _ _ _ _ _ (/ 2) (/ 2) 1 1 aorc s m v s' m' v' D 0 0 [x] _ _ _ [1] HE (aperm s HN) HA HS N0 Hcx I1 I2 E1 E2 ET HC).
Qed.

Lemma jfirst_case : forall la, exists s m v D s' m' v', adam_exec jinner aattr ac (s, (m, v)) D /\ perms_valid aorc s /\
  vstep jinner ac aorc (s, (m, v)) = Ok (s', (m', v')) /\ (0 < s_M s)%nat /\ (0 < s_N s)%nat /\ parameters la 1 0 s /\ finite_draws 1 aorc /\
  cell (s_x s) 0 0 = Some (floats [0]) /\ In 0%nat (s_active s) /\ In 0%nat (run_selp ac aorc s 0) /\
  nth_error (s_x s) 0 = Some (map floats [[0]; [2]]) /\ nth_error (s_alpha s) 0 = Some [Fin 0] /\
  takeM (map floats [[0]; [2]]) (run_sel ac aorc s 0) = Ok (map floats [[0]; [2]]) /\
  cc_default (map (fun _ => Fin 0) (map floats [[0]; [2]])) (map floats [[0]; [2]]) (Fin 0) = [floats [1]] /\
  s_it s = 0%nat /\ D 0%nat 0%nat = [] /\ drift_at s s' 0 0 = [floats [-1]].
Proof.
  intros la. destruct (jstart la) as (s & _ & B & Hit). destruct (jnext _ _ _ _ _ _ B) as (s' & m' & v' & HS).
  exists s, (fst (aattr s)), (snd (aattr s)), (fun _ _ => []), s', m', v'.
  pose proof (jcase _ _ _ _ _ _ _ _ _ _ B HS acons) as J. replace (0 - 1) with (-1) in J by ring. tauto.
Qed.

Lemma jmomentum_case : exists s m v D s' m' v', adam_exec jinner aattr ac (s, (m, v)) D /\ perms_valid aorc s /\
  vstep jinner ac aorc (s, (m, v)) = Ok (s', (m', v')) /\ (0 < s_M s)%nat /\ (0 < s_N s)%nat /\ parameters 2 1 0 s /\ finite_draws 1 aorc /\
  cell (s_x s) 0 0 = Some (floats [1]) /\ In 0%nat (s_active s) /\ In 0%nat (run_selp ac aorc s 0) /\
  nth_error (s_x s) 0 = Some (map floats [[1]; [1]]) /\ nth_error (s_alpha s) 0 = Some [Fin 0] /\
  takeM (map floats [[1]; [1]]) (run_sel ac aorc s 0) = Ok (map floats [[1]; [1]]) /\
  cc_default (map (fun _ => Fin 0) (map floats [[1]; [1]])) (map floats [[1]; [1]]) (Fin 0) = [floats [1]] /\
  D 0%nat 0%nat = map floats [[-1]] /\ exp_weighted (/ 2) (map (coord 0) [[-1]]) <> 0 /\ drift_at s s' 0 0 = [floats [0]].
Proof.
  destruct jfirst as (s0 & m0 & v0 & D0 & s & m & v & _ & HD & _ & _ & B & Hd). destruct (jnext _ _ _ _ _ _ B) as (s' & m' & v' & HS).
  exists s, m, v, (fun a b => D0 a b ++ drift_at s0 s a b), s', m', v'.
  pose proof (jcase _ _ _ _ _ _ _ _ _ _ B HS jcons1) as J. replace (1 - 1) with 0 in J by ring.
  assert (E : D0 0%nat 0%nat ++ drift_at s0 s 0 0 = map floats [[-1]]) by (rewrite HD, Hd; reflexivity).
  assert (F : exp_weighted (/ 2) (map (coord 0) [[-1]]) <> 0) by (unfold exp_weighted, coord; cbn; lra). tauto.
Qed.
