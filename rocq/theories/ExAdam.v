(** * AdamCBO: a concrete execution with constant drift *)
From Coq Require Import String List Arith Bool Permutation Lia Reals Lra.
From Verif Require Import Scalar ScalarFacts RFacts Np NpFacts State Pdyn PdynFacts PdynStep PdynRun PdynOk Exec Script
  StepFrame BatchFacts Memory MemSpec MemFacts MemFacts2 MemFacts3 Variant VarSpec VarFacts VarMove RVec RVecFacts Consensus ConsSpec ConsFacts Cbo CboSpec CboFacts RegFacts AdamSpec AdamFacts AdamR.
Import ListNotations.
Open Scope nat_scope.
Open Scope list_scope.

(** one run, two particles at 0 and 2, alpha = 0 (the consensus is 1), lamda = sigma = 0, so that the particles stay *)
Definition ac : cfg R vec := cbo_cfg (fun _ => Fin 0%R) NAniso (fun v => v) NoCorr 2 false false [] false.
Definition ax0 : arr vec := [[floats [0%R]; floats [2%R]]].
Definition ainit : res (st R vec) := init ac ax0 false (Fin 0%R) (Fin 0%R) (Fin 0%R) (Fin 1%R) (fun _ => [0; 1]) None [] None.
Definition aorc : orc vec := {| o_z := fun _ _ => floats [0%R]; o_perm := fun _ => [0; 1] |}.
Definition apr : apar := mkapar (Fin (/ 2)%R) (Fin (/ 4)%R) (Fin (1)%R).
Notation ainner := (adam_inner np_sq np_quot apr).
Notation aattr := (adam_attr (floats (repeat 0%R 1))).

Record still (s : st R vec) (m v : arr vec) (D : nat -> nat -> list vec) (j : nat) : Prop := {
  st_exec : adam_exec ainner aattr ac (s, (m, v)) D;
  st_x : s_x s = ax0; st_M : s_M s = 1; st_N : s_N s = 2; st_act : s_active s = [0]; st_al : s_alpha s = [[Fin 0%R]];
  st_la : s_lamda s = Fin 0%R; st_sg : s_sigma s = Fin 0%R; st_dt : s_dt s = Fin 1%R;
  st_D0 : D 0 0 = repeat (floats [(-1)%R]) j; st_D1 : D 0 1 = repeat (floats [1%R]) j }.

Lemma acons : cc_default [Fin 0%R; Fin 0%R] [floats [0%R]; floats [2%R]] (Fin 0%R) = [floats [1%R]].
Proof.
  assert (HA : admissible 0 [Fin 0%R; Fin 0%R]). { split. { intros e He. left. destruct He as [<-|[<-|[]]]; eauto. } exists 0%R. cbn. auto. }
  assert (HE : ensemble 2 1 [[0%R]; [2%R]]). { split; auto. intros p [<-|[<-|[]]]; auto. }
  change [floats [0%R]; floats [2%R]] with (map floats [[0%R]; [2%R]]).
  rewrite (consensus_gibbs 0 _ 1 _ HA HE). rewrite (alpha_zero _ 1 _ HA HE). cbn. do 3 f_equal. unfold coord; cbn; lra.
Qed.

Lemma astart : exists s, ainit = Ok s /\ still s (fst (aattr s)) (snd (aattr s)) (fun _ _ => []) 0.
Proof.
  eexists. split; [reflexivity|]. constructor; try reflexivity. apply (ax_init ainner aattr ac).
  exists ax0, false, (Fin 0%R), (Fin 0%R), (Fin 0%R), (Fin 1%R), (fun _ => [0; 1]), None, [], None.
  split; [split; [reflexivity|repeat constructor]|]. split; [cbn; lia|]. split; [cbn; lia|].
  split; [|split; [discriminate|reflexivity]]. intros m _. apply (perm_b_ok 2). reflexivity.
Qed.

Lemma aperm : forall s : st R vec, s_N s = 2 -> perms_valid aorc s.
Proof. intros s H m _. rewrite H. apply (perm_b_ok 2). reflexivity. Qed.
Lemma afull : forall s : st R vec, s_N s = 2 -> adam_full ac s.
Proof. intros. right. auto. Qed.

Lemma ahalf : (0 <= / 2 < 1)%R. Proof. lra. Qed.
Lemma aquart : (0 <= / 4 < 1)%R. Proof. lra. Qed.

Lemma fsub_floats : forall u v, map2 fsub (floats u) (floats v) = floats (vsub u v).
Proof. exact floats_sub. Qed.

Lemma one_floats : forall w : list R, length w = 1 -> exists a, w = [a].
Proof. intros [|a [|]]; try discriminate. eauto. Qed.

(** with lamda = sigma = 0 nothing moves *)
Lemma stay : forall x m v it dt dv z, (forall a, In a v -> 0 <= a)%R -> length m = 1 -> length v = 1 -> (0 <= dt)%R ->
  map2 fsub (floats [x]) (map2 fsub (map (fmul (Fin 0%R)) (np_quot (Fin 1%R)
           (map (fmul (adam_factor (Fin (/ 2)%R) it)) (floats m)) (map (fmul (adam_factor (Fin (/ 4)%R) it)) (floats v))))
           (map (fmul (Fin 0%R)) (noise_of NAniso (Fin dt) (floats [dv]) (floats [z])))) = floats [x].
Proof.
  intros x m v it dt dv z Hv Lm Lv Hdt. destruct (one_floats _ Lm) as [a ->]. destruct (one_floats _ Lv) as [b ->].
  rewrite !factor_fin by lra. rewrite !floats_scal, noise_floats by auto. unfold np_quot. cbn [vscal map floats map2].
  pose proof (pow_lt_1 (/ 4) it ltac:(lra)) as HL. pose proof (Hv b (or_introl eq_refl)) as Hb.
  assert (0 <= 1 / (1 - (/ 4) ^ S it) * b)%R. { apply Rmult_le_pos; auto. apply Rlt_le, Rdiv_lt_0_compat; lra. }
  rewrite fsqrt_fin by auto. pose proof (sqrt_pos (1 / (1 - (/ 4) ^ S it) * b)). cbn [fadd kadd KOps_R].
  rewrite fdiv_fin by lra. cbn. f_equal. f_equal. ring.
Qed.

Lemma vadd_length1 : forall u w : list R, length u = 1 -> length w = 1 -> length (vadd u w) = 1.
Proof. intros. apply length_vadd; auto. Qed.

Lemma still_step : forall s m v D j, still s m v D j -> exists s' m' v',
  vstep ainner ac aorc (s, (m, v)) = Ok (s', (m', v')) /\
  still s' m' v' (fun a b => D a b ++ drift_at s s' a b) (S j) /\ s_it s' = S (s_it s).
Proof.
  intros s m v D j [HE Hx HM HN Ha Hal Hla Hsg Hdt H0 H1].
  destruct (adam_inv _ _ _ _ _ _ _ _ _ _ _ _ _ _ _ _ _ HE) as (W & Rm & Rv).
  assert (C1 : one_consensus_point ac) by (intros e x a; reflexivity).
  assert (HA : s_active s <> []) by (rewrite Ha; discriminate).
  destruct (adam_step_ok np_sq np_quot apr ac aorc s m v W (aperm s HN) C1 HA Rm Rv) as ([s' [m' v']] & HS).
  exists s', m', v'. split; auto.
  pose proof (ax_step _ _ _ _ _ _ _ _ _ HE (aperm s HN) HA HS) as HE'.
  destruct (vstep_good _ _ _ (adam_regular np_sq np_quot apr) ac aorc s (m, v) s' (m', v') I W (perms_valid_ok _ _ (aperm s HN)) HA (conj Rm Rv) HS) as [GS _].
  destruct GS as (W' & (EM & EN & E3 & E4 & E5 & E6 & E7 & E8 & E9 & _) & _).
  assert (Hcell : forall n x, n < 2 -> nth_error [0; 2]%R n = Some x -> D 0 n = repeat (floats [x - 1]%R) j ->
            cell (s_x s') 0 n = Some (floats [x]) /\ drift_at s s' 0 n = [floats [x - 1]%R]).
  { intros n x Hn Ex HD.
    destruct (drift_at_char _ _ _ _ _ _ _ _ _ _ _ _ 1 aorc s m v s' m' v' D 0 n HE (aperm s HN) HA HS) as
      [([NI|NI] & _)|(i & i' & xv & mv & vv & dv & Hi & _ & _ & Ed & Hxv & Hmv & Hvv & (xr & xb & a & cv & Q1 & Q2 & Q3 & Q4 & Q5) & _ & _ & Q6)].
    { rewrite HN. auto. } { rewrite Ha in NI. cbn in NI. tauto. }
    { exfalso. apply NI. rewrite full_sel by (apply afull; auto). rewrite HN. apply in_seq. lia. }
    rewrite Hal in Q2. cbn in Q2. injection Q2 as <-. rewrite Hx in Q1. cbn in Q1. injection Q1 as <-.
    unfold run_sel in Q3. rewrite HN in Q3. cbn in Q3. injection Q3 as <-.
    pose proof (eq_trans (eq_sym Q4) acons) as Qc. injection Qc as ->.
    assert (Exv : xv = floats [x]).
    { rewrite Hx in Hxv. unfold cell in Hxv. cbn [nth_error ax0] in Hxv.
      destruct n as [|[|n]]; [| |lia]; cbn in Hxv, Ex; injection Hxv as <-; injection Ex as <-; auto. }
    subst xv. assert (Edv : dv = floats [x - 1]%R) by (etransitivity; [exact Q5|exact (floats_sub [x] [1%R])]).
    clear Q5. subst dv. split; [|exact Ed].
    assert (HD' : D 0 n = map floats (repeat [x - 1]%R j)). { rewrite HD. clear. induction j; cbn; auto. f_equal. auto. }
    assert (HL : forall u : list R, In u (repeat [(x - 1)%R] j) -> length u = 1). { intros u Hu. apply repeat_spec in Hu. subst. auto. }
    assert (H01 : 0 < s_M s) by lia. assert (Hn2 : n < s_N s) by lia.
    destruct (adam_moments _ _ _ _ _ _ _ _ _ _ _ _ 1 s m v D 0 n _ HE H01 Hn2 HD' HL) as [Em Ev].
    destruct (adam_second_nonneg _ _ _ _ _ _ _ _ _ _ _ _ 1 aquart s m v D 0 n _ HE H01 Hn2 HD' HL) as (w & Ew & Hw).
    rewrite Hmv in Em. injection Em as ->. rewrite Hvv in Ev. injection Ev as ->.
    assert (Ew' : floats (moment (/ 4) 1 (map squares (repeat [(x - 1)%R] j))) = floats w).
    { pose proof (eq_trans (eq_sym Hvv) Ew) as Ee. exact (f_equal (fun o => match o with Some a => a | None => [] end) Ee). }
    apply floats_inj in Ew'. rewrite <- Ew' in Hw.
    rewrite Q6, Hla, Hsg, Hdt. f_equal. rewrite np_sq_floats, !floats_scal. cbn [aorc o_z].
    match goal with |- context [map (fmul (adam_factor (Fin (/ 2)%R) _)) ?q] => replace q with
      (floats (vadd (vscal (/ 2) (moment (/ 2) 1 (repeat [(x - 1)%R] j))) (vscal (1 - / 2) [(x - 1)%R]))) by (symmetry; refine (eq_trans _ (floats_add _ _)); rewrite <- !floats_scal; reflexivity) end.
    match goal with |- context [map (fmul (adam_factor (Fin (/ 4)%R) _)) ?q] => replace q with
      (floats (vadd (vscal (/ 4) (moment (/ 4) 1 (map squares (repeat [(x - 1)%R] j)))) (vscal (1 - / 4) (squares [(x - 1)%R])))) by (symmetry; refine (eq_trans _ (floats_add _ _)); rewrite <- !floats_scal; reflexivity) end.
    assert (Lm1 : forall b us, length (moment b 1 us) = 1) by (intros; apply length_moment).
    apply stay; try lra.
    - intros b Hb. destruct (one_floats _ (Lm1 (/ 4)%R (map squares (repeat [(x - 1)%R] j)))) as [q Eq].
      rewrite Eq in *. cbn in Hb. destruct Hb as [<-|[]]. pose proof (Hw q (or_introl eq_refl)).
      pose proof (Rle_0_sqr (x - 1)) as Hs. unfold Rsqr in Hs. nra.
    - rewrite vadd_length1; [auto|rewrite length_vscal; auto|auto].
    - rewrite vadd_length1; [auto|rewrite length_vscal; auto|auto]. }
  destruct (Hcell 0 0%R) as [C0 D0]; [lia|reflexivity|rewrite H0; do 3 f_equal; ring|].
  destruct (Hcell 1 2%R) as [C1' D1]; [lia|reflexivity|rewrite H1; do 3 f_equal; ring|].
  split; [|congruence].
  constructor; try congruence.
  - pose proof (w_x _ _ W') as Rx. rewrite EM, EN, HM, HN in Rx. destruct Rx as [R1 R2].
    destruct (s_x s') as [|row [|]] eqn:Ex; try discriminate. pose proof (R2 0 row eq_refl) as R3.
    destruct row as [|p0 [|p1 [|]]]; try discriminate. cbn in C0, C1'. injection C0 as ->. injection C1' as ->. reflexivity.
  - rewrite H0, D0. replace (0 - 1)%R with (-1)%R by ring. symmetry. exact (repeat_cons j _).
  - rewrite H1, D1. replace (2 - 1)%R with 1%R by ring. symmetry. exact (repeat_cons j _).
Qed.

Lemma still_n : forall j, exists s m v D, still s m v D j /\ s_it s = j.
Proof.
  induction j as [|j (s & m & v & D & HS & Hi)].
  - destruct astart as (s & Ei & HS). do 4 eexists. split; [exact HS|]. injection Ei as <-. reflexivity.
  - destruct (still_step _ _ _ _ _ HS) as (s' & m' & v' & _ & HS' & Hi'). do 4 eexists. split; [exact HS'|]. congruence.
Qed.

Lemma still_reset : forall s m v D j, still s m v D j -> still (reset s) m v D j.
Proof.
  intros s m v D j H. destruct (reset_char s) as (ts & h & E & _).
  destruct H. constructor; try (rewrite E; sst; auto; fail). 3:auto. 2:auto. apply ax_reset; auto.
Qed.

(** mini-batches: three particles at 0, 2, 2, batches of two; the first batch holds particles 1 and 2, the second one particles 0 and 1 *)
Definition bcf : cfg R vec := cbo_cfg (fun _ => Fin 0%R) NAniso (fun v => v) NoCorr 2 true false [] false.
Definition bx0 : arr vec := [[floats [0%R]; floats [2%R]; floats [2%R]]].
Definition binit : res (st R vec) := init bcf bx0 false (Fin 0%R) (Fin 0%R) (Fin 0%R) (Fin 1%R) (fun _ => [1; 2; 0]) None [] None.
Definition borc (p : list nat) : orc vec := {| o_z := fun _ _ => floats [0%R]; o_perm := fun _ => p |}.

Lemma bcons2 : cc_default [Fin 0%R; Fin 0%R] [floats [2%R]; floats [2%R]] (Fin 0%R) = [floats [2%R]].
Proof.
  assert (HA : admissible 0 [Fin 0%R; Fin 0%R]). { split. { intros e He. left. destruct He as [<-|[<-|[]]]; eauto. } exists 0%R. cbn. auto. }
  assert (HE : ensemble 2 1 [[2%R]; [2%R]]). { split; auto. intros p [<-|[<-|[]]]; auto. }
  change [floats [2%R]; floats [2%R]] with (map floats [[2%R]; [2%R]]).
  rewrite (consensus_gibbs 0 _ 1 _ HA HE). rewrite (alpha_zero _ 1 _ HA HE). cbn. do 3 f_equal. unfold coord; cbn; lra.
Qed.

Lemma bperm : forall (s : st R vec) p, s_N s = 3 -> perm_b 3 p = true -> perms_valid (borc p) s.
Proof. intros s p H Hp m _. rewrite H. apply (perm_b_ok 3). auto. Qed.

Lemma adam_ind : forall (c : cfg R vec) o s m v s' m' v' r, wf c s -> perms_valid o s -> s_active s <> [] -> c_bsize c <> s_N s ->
  rect (s_M s) (s_N s) m -> rect (s_M s) (s_N s) v -> vstep ainner c o (s, (m, v)) = Ok (s', (m', v')) -> r < s_M s ->
  nth_error (s_ind s') r = Some (skipn (c_bsize c) (ind_next c o s r)).
Proof.
  intros c o s m v s' m' v' r W P HA HB Rm Rv H Hr. pose proof (perms_valid_ok _ _ P) as PO.
  apply vstep_inv in H. destruct H as (s0 & s2 & E1 & E2 & E3).
  destruct (pre_cons_full c o s W PO) as (s0' & sc & ci & pi & cp & CO).
  pose proof (co_pre _ _ _ _ _ _ _ _ CO) as E1'. rewrite E1 in E1'. injection E1' as <-.
  destruct (adam_regular np_sq np_quot apr c o s s0 sc ci pi cp (m, v) s2 (m', v') I W PO HA CO (conj Rm Rv) E2) as (x' & d & fc & nf & -> & _).
  destruct (pre_step_batched c o s s0 W PO HB E1) as (bs & _ & _ & _ & _ & HI). rewrite <- (HI r Hr).
  pose proof (co_cons _ _ _ _ _ _ _ _ CO) as EC. apply compute_consensus_frame in EC. destruct EC as (cep & e & cp' & fc' & nf' & ->).
  apply post_step_frame in E3. destruct E3 as (x & ud & fm & bcp & bce & be & bp & s5 & E & ->).
  apply track_frame in E. destruct E as (ti & ts & h & ->). sst. auto.
Qed.

Lemma b_missed_then_served : exists s m v D s' m' v', adam_uninterrupted ainner aattr bcf 0 (s, (m, v)) D /\
  perms_valid (borc [0; 1; 2]) s /\ s_active s = [0] /\ s_M s = 1 /\ s_N s = 3 /\ s_it s = 1 /\ D 0 0 = [] /\
  vstep ainner bcf (borc [0; 1; 2]) (s, (m, v)) = Ok (s', (m', v')) /\ drift_at s s' 0 0 = [floats [(-1)%R]].
Proof.
  assert (HI : exists s, binit = Ok s /\ s_x s = bx0 /\ s_M s = 1 /\ s_N s = 3 /\ s_active s = [0] /\ s_alpha s = [[Fin 0%R]] /\ s_lamda s = Fin 0%R /\
            s_sigma s = Fin 0%R /\ s_dt s = Fin 1%R /\ s_it s = 0 /\ s_ind s = [[1; 2; 0]]).
  { eexists. split; [reflexivity|]. repeat (split; [reflexivity|]). reflexivity. }
  destruct HI as (s0 & Ei & Hx & HM & HN & Ha & Hal & Hla & Hsg & Hdt & Hit & Hind).
  assert (HC : constructed bcf s0).
  { exists bx0, false, (Fin 0%R), (Fin 0%R), (Fin 0%R), (Fin 1%R), (fun _ => [1; 2; 0]), None, [], None.
    split; [split; [reflexivity|repeat constructor]|]. split; [cbn; lia|]. split; [cbn; lia|].
    split; [|split; [discriminate|exact Ei]]. intros m _. apply (perm_b_ok 3). reflexivity. }
  pose proof (au_init ainner aattr bcf 0 s0 HC) as U0. pose proof (ax_init ainner aattr bcf s0 HC) as X0.
  destruct (aattr s0) as [m0 v0] eqn:Emv.
  destruct (adam_inv _ _ _ _ _ _ _ _ _ _ _ _ _ _ _ _ _ X0) as (W & Rm & Rv).
  assert (C1 : one_consensus_point bcf) by (intros e x a; reflexivity).
  assert (HA : s_active s0 <> []) by (rewrite Ha; discriminate).
  assert (P0 : perms_valid (borc [0; 1; 2]) s0) by (apply bperm; auto).
  destruct (adam_step_ok np_sq np_quot apr bcf (borc [0; 1; 2]) s0 m0 v0 W P0 C1 HA Rm Rv) as ([s1 [m1 v1]] & HS).
  assert (In0 : In 0 (s_active s0)) by (rewrite Ha; cbn; auto).
  pose proof (au_step _ _ _ _ _ _ _ _ _ _ U0 P0 In0 HS) as U1. pose proof (ax_step _ _ _ _ _ _ _ _ _ X0 P0 HA HS) as X1.
  destruct (vstep_good _ _ _ (adam_regular np_sq np_quot apr) bcf (borc [0; 1; 2]) s0 (m0, v0) s1 (m1, v1) I W (perms_valid_ok _ _ P0) HA (conj Rm Rv) HS) as [GS [Rm1 Rv1]].
  destruct GS as (W1 & (EM & EN & E3 & E4 & E5 & E6 & E7 & E8 & E9 & _) & _).
  rewrite HM in EM. rewrite HN in EN.
  assert (Hb : c_bsize bcf <> s_N s0) by (rewrite HN; cbn; lia).
  assert (Hs0 : run_sel bcf (borc [0; 1; 2]) s0 0 = [1; 2] /\ run_selp bcf (borc [0; 1; 2]) s0 0 = [1; 2]).
  { unfold run_sel, run_selp, ind_next. rewrite HN, Hind. cbn. auto. }
  assert (Hi1 : nth_error (s_ind s1) 0 = Some [0]).
  { rewrite (adam_ind bcf _ s0 m0 v0 s1 m1 v1 0 W P0 HA Hb Rm Rv HS) by lia. unfold ind_next. rewrite Hind. reflexivity. }
  assert (H3 : forall n, n < 3 -> n < s_N s0) by lia.
  (* particle 0 is not served *)
  assert (D0 : drift_at s0 s1 0 0 = [] /\ cell (s_x s1) 0 0 = Some (floats [0%R])).
  { destruct (drift_at_char _ _ _ _ _ _ _ _ _ _ _ _ 1 (borc [0; 1; 2]) s0 m0 v0 s1 m1 v1 _ 0 0 X0 P0 HA HS (H3 0 ltac:(lia))) as
      [(_ & Ed & _ & _ & Q)|(i & i' & xv & mv & vv & dv & _ & Hi' & _)].
    - split; [exact Ed|]. refine (eq_trans Q _). rewrite Hx. reflexivity.
    - pose proof (nth_error_In _ _ Hi') as Hin. exfalso. change (In 0 (run_selp bcf (borc [0; 1; 2]) s0 0)) in Hin.
      rewrite (proj2 Hs0) in Hin. cbn in Hin. lia. }
  (* particle 1 stays *)
  assert (X11 : cell (s_x s1) 0 1 = Some (floats [2%R])).
  { destruct (drift_at_char _ _ _ _ _ _ _ _ _ _ _ _ 1 (borc [0; 1; 2]) s0 m0 v0 s1 m1 v1 _ 0 1 X0 P0 HA HS (H3 1 ltac:(lia))) as
      [(_ & Ed & _ & _ & Q)|(i & i' & xv & mv & vv & dv & Hi & _ & _ & Ed & Hxv & Hmv & Hvv & (xr & xb & a & cv & Q1 & Q2 & Q3 & Q4 & Q5) & _ & _ & Q6)].
    - refine (eq_trans Q _). rewrite Hx. reflexivity.
    - rewrite Hal in Q2. cbn in Q2. injection Q2 as <-. rewrite Hx in Q1. cbn in Q1. injection Q1 as <-.
      change (takeM [floats [0%R]; floats [2%R]; floats [2%R]] (run_sel bcf (borc [0; 1; 2]) s0 0) = Ok xb) in Q3.
      rewrite (proj1 Hs0) in Q3. cbn in Q3. injection Q3 as <-.
      pose proof (eq_trans (eq_sym Q4) bcons2) as Qc. injection Qc as ->.
      rewrite Hx in Hxv. cbn in Hxv. injection Hxv as <-.
      assert (Edv : dv = floats [2 - 2]%R) by (etransitivity; [exact Q5|exact (floats_sub [2%R] [2%R])]). clear Q5. subst dv.
      assert (Emv' : mv = floats [0%R] /\ vv = floats [0%R]).
      { assert (E1 : m0 = map (map (fun _ => floats [0%R])) bx0) by (rewrite <- Hx; exact (f_equal fst (eq_sym Emv))).
        assert (E2 : v0 = map (map (fun _ => floats [0%R])) bx0) by (rewrite <- Hx; exact (f_equal snd (eq_sym Emv))).
        rewrite E1 in Hmv. rewrite E2 in Hvv. cbn in Hmv, Hvv. injection Hmv as <-. injection Hvv as <-. auto. }
      destruct Emv' as [-> ->]. rewrite Q6, Hla, Hsg, Hdt. f_equal. cbn [borc o_z]. rewrite np_sq_floats, !floats_scal.
      pose proof (stay 2 (vadd (vscal (/ 2) [0%R]) (vscal (1 - / 2) [(2 - 2)%R])) (vadd (vscal (/ 4) [0%R]) (vscal (1 - / 4) (squares [(2 - 2)%R]))) (s_it s0) 1 (2 - 2) 0) as Hst.
      rewrite <- !floats_add in Hst. apply Hst; auto; try lra.
      intros b Hb'. cbn in Hb'. destruct Hb' as [<-|[]]. lra. }
  assert (P1 : perms_valid (borc [0; 1; 2]) s1) by (apply bperm; auto).
  assert (HA1 : s_active s1 <> []) by (rewrite E9; auto).
  destruct (adam_step_ok np_sq np_quot apr bcf (borc [0; 1; 2]) s1 m1 v1 W1 P1 C1 HA1) as ([s2 [m2 v2]] & HS1).
  { rewrite EM, EN. rewrite HM, HN in Rm1. auto. } { rewrite EM, EN. rewrite HM, HN in Rv1. auto. }
  assert (Hs1 : run_sel bcf (borc [0; 1; 2]) s1 0 = [0; 1] /\ run_selp bcf (borc [0; 1; 2]) s1 0 = [0; 1]).
  { unfold run_sel, run_selp, ind_next. rewrite EN. cbn. unfold shape1.
    destruct (s_ind s1) as [|r0 rest]; [discriminate|]. cbn in Hi1. injection Hi1 as ->. cbn. auto. }
  exists s1, m1, v1, (fun a b => [] ++ drift_at s0 s1 a b), s2, m2, v2.
  split; [exact U1|]. split; auto. split; [congruence|]. split; auto. split; auto. split; [congruence|].
  split; [exact (proj1 D0)|]. split; auto.
  assert (Hn1 : 0 < s_N s1) by lia.
  destruct (drift_at_char _ _ _ _ _ _ _ _ _ _ _ _ 1 (borc [0; 1; 2]) s1 m1 v1 s2 m2 v2 _ 0 0 X1 P1 HA1 HS1 Hn1) as
      [([NI|NI] & _)|(i & i' & xv & mv & vv & dv & Hi & _ & _ & Ed & Hxv & _ & _ & (xr & xb & a & cv & Q1 & Q2 & Q3 & Q4 & Q5) & _)].
  - exfalso. apply NI. rewrite E9, Ha. cbn. auto.
  - exfalso. apply NI. change (In 0 (run_selp bcf (borc [0; 1; 2]) s1 0)). rewrite (proj2 Hs1). cbn. auto.
  - rewrite (proj2 D0) in Hxv. injection Hxv as <-.
    rewrite E3, Hal in Q2. cbn in Q2. injection Q2 as <-.
    change (takeM xr (run_sel bcf (borc [0; 1; 2]) s1 0) = Ok xb) in Q3. rewrite (proj1 Hs1) in Q3.
    assert (Exb : xb = [floats [0%R]; floats [2%R]]).
    { pose proof (proj2 D0) as C0. unfold cell in C0, X11. rewrite Q1 in C0, X11.
      pose proof (takeM_length _ _ _ _ Q3) as L. pose proof (takeM_nth _ _ _ _ 0 0 Q3 eq_refl) as T0. pose proof (takeM_nth _ _ _ _ 1 1 Q3 eq_refl) as T1.
      pose proof (eq_trans T0 C0) as T0'. pose proof (eq_trans T1 X11) as T1'. destruct xb as [|a0 [|a1 [|]]]; try discriminate.
      change (Some a0 = Some (floats [0%R])) in T0'. change (Some a1 = Some (floats [2%R])) in T1'.
      assert (A0 : a0 = floats [0%R]) by exact (f_equal (fun q => match q with Some w => w | None => a0 end) T0').
      assert (A1 : a1 = floats [2%R]) by exact (f_equal (fun q => match q with Some w => w | None => a1 end) T1').
      rewrite A0, A1. reflexivity. }
    subst xb. pose proof (eq_trans (eq_sym Q4) acons) as Qc. injection Qc as ->.
    rewrite Ed. f_equal. etransitivity; [exact Q5|]. etransitivity; [exact (floats_sub [0%R] [1%R])|]. cbn. do 2 f_equal. ring.
Qed.
