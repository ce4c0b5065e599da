(** * The move of CBOMemory *)
From Coq Require Import String List Arith Bool Lia Permutation.
From Verif Require Import Scalar ScalarFacts Np NpFacts State Pdyn PdynFacts PdynStep PdynRun Exec PdynOk RunFacts StepFrame BestFacts BcFacts HeaviFacts Memory MemSpec MemFacts MemFacts2 MemFacts3 MemRaise MemMove.
Import ListNotations.
Open Scope nat_scope.
Open Scope list_scope.

Section Move2.
  Context {K V : Type} {O : KOps K}.
  Notation st := (st K V).
  Notation cfg := (cfg K V).
  Notation orc := (orc V).
  Notation mst := (mst K V).
  Notation mpar := (mpar K).

  (** the two updates of one CBOMemory particle *)
  Definition mem_half (c : cfg) (s : st) (g x z : V) : V :=
    c_vadd c x (cbo_update c (c_vsub c x g) (s_lamda s) (s_dt s) (s_sigma s) (c_noise c (s_dt s) (c_vsub c x g) z)).
  Definition mem_point (c : cfg) (p : mpar) (s : st) (g x y z z2 : V) : V :=
    let h := mem_half c s g x z in
    c_vadd c h (cbo_update c (c_vsub c h y) (p_lm p) (s_dt s) (p_sm p) (c_noise c (s_dt s) (c_vsub c h y) z2)).

  Lemma iop2_rect : forall A B (f : A -> B -> A) M N X Y, rect M N X -> rect M N Y -> iop2 f X Y = Ok (map2 (map2 f) X Y).
  Proof. intros A B f M N X Y RX RY. apply iop2_same. rewrite (proj1 RX), (proj1 RY); auto. intros k x y E1 E2. rewrite (proj2 RX _ _ E1), (proj2 RY _ _ E2); auto. Qed.

  Lemma mem_inner_move : forall (c : cfg) p (o : orc) z2 ms ms', c_corr c = NoCorr -> one_consensus_point c ->
    ready c (m_s ms) -> length (s_active (m_s ms)) = s_M (m_s ms) -> nmoved c (s_N (m_s ms)) = s_N (m_s ms) -> c_bsize c = s_N (m_s ms) ->
    rect (s_M (m_s ms)) (s_N (m_s ms)) (m_y ms) -> mem_inner c p o z2 ms = Ok ms' ->
    exists cpt, mem_consensus c (m_s ms) (m_y ms) = Ok cpt /\ rect (s_M (m_s ms)) 1 cpt /\
      forall m n x y g, cell (s_x (m_s ms)) m n = Some x -> cell (m_y ms) m n = Some y ->
        cell cpt m 0 = Some g -> cell (m_ev ms') m n = Some (mem_point c p (m_s ms) g x y (o_z o m n) (z2 m n)).
  Proof.
    intros c p o z2 ms ms' NC OC R HA Hn Hb Ry H. set (s1 := m_s ms) in *. set (M := s_M s1) in *. set (N := s_N s1) in *.
    destruct (full_idx _ _ R HA Hn) as [Ea Hfull]. pose proof (rd_e _ _ R) as Re. pose proof (rd_x _ _ R) as Rx.
    destruct (alpha_ok _ _ R) as (al & Eal & Ral). rewrite HA in Ral.
    unfold mem_inner in H. fold s1 in H.
    apply bind_ok in H. destruct H as (sa & H1 & H). apply bind_ok in H. destruct H as (sb & H2 & H). apply bind_ok in H. destruct H as (xe & H3 & H).
    unfold mem_cbo_step in H1. apply bind_ok in H1. destruct H1 as (cpt & Hc & H1). exists cpt. split; [exact Hc|].
    assert (Rc : rect M 1 cpt).
    { unfold mem_consensus in Hc.
      destruct (gather_rect _ _ _ _ _ _ (m_y ms) (rd_c _ _ R) (rd_lt _ _ R) Ry (rd_cs _ _ R)) as (yb & Eyb & Ryb). rewrite HA, Hb in Ryb.
      rewrite Eyb in Hc. cbn [bind] in Hc. rewrite Eal in Hc. cbn [bind] in Hc.
      destruct (cc_call_ok c (s_energy s1) yb al _ _ _ OC Re Ryb Ral) as (cpt' & E & Rc'); auto. rewrite Hc in E. inversion E; subst cpt'. exact Rc'. }
    cbv zeta in H1. ssti H1. rewrite (proj1 (Hfull _ _ Rx)) in H1. cbn [bind] in H1.
    apply bind_ok in H1. destruct H1 as (cd & Hcd & H1). destruct (bc2_col_cell _ _ _ _ _ _ _ _ _ Rx Rc Hcd) as [Rcd Ccd]. clear Hcd.
    apply bind_ok in H1. destruct H1 as ([kd s2] & Hk & H1). unfold correction in Hk. rewrite NC in Hk. inversion Hk; subst kd s2. clear Hk. ssti H1.
    pose proof (rect_amapi _ _ (fun k n v => cbo_update c v (s_lamda s1) (s_dt s1) (s_sigma s1) (c_noise c (s_dt s1) v (o_z o k n))) _ _ _ Rcd) as R1. set (u1 := amapi _ cd) in *.
    rewrite (iop2_rect _ _ _ _ _ _ _ Rx R1) in H1. cbn [bind] in H1. pose proof (rect_map2 _ _ _ (c_vadd c) _ _ _ _ Rx R1) as RX1. set (x1 := map2 _ (s_x s1) u1) in *.
    rewrite (proj2 (Hfull _ _ Rx) x1 RX1) in H1. cbn [bind] in H1.
    assert (Ex : s_x sa = x1) by (inversion H1; sst; auto). assert (Ep : s_pidx sa = s_pidx s1) by (inversion H1; sst; auto). assert (Ed : s_dt sa = s_dt s1) by (inversion H1; sst; auto). clear H1.
    unfold memory_step in H2. rewrite Ex, Ep, Ed in H2. rewrite (proj1 (Hfull _ _ RX1)) in H2. cbn [bind] in H2. rewrite (proj1 (Hfull _ _ Ry)) in H2. cbn [bind] in H2.
    rewrite (bc2_same _ _ _ _ _ _ _ _ RX1 Ry) in H2. cbn [bind] in H2. cbv zeta in H2.
    pose proof (rect_map2 _ _ _ (c_vsub c) _ _ _ _ RX1 Ry) as Rmd. set (md := map2 _ x1 (m_y ms)) in *.
    pose proof (rect_amapi _ _ (fun k n v => cbo_update c v (p_lm p) (s_dt s1) (p_sm p) (c_noise c (s_dt s1) v (z2 k n))) _ _ _ Rmd) as R2. set (u2 := amapi _ md) in *.
    rewrite (iop2_rect _ _ _ _ _ _ _ RX1 R2) in H2. cbn [bind] in H2. pose proof (rect_map2 _ _ _ (c_vadd c) _ _ _ _ RX1 R2) as RX2. set (x2 := map2 _ x1 u2) in *.
    rewrite (proj2 (Hfull _ _ RX1) x2 RX2) in H2. cbn [bind] in H2.
    assert (Ex2 : s_x sb = x2) by (inversion H2; sst; auto). assert (Ep2 : s_pidx sb = s_pidx sa) by (inversion H2; sst; auto). clear H2.
    rewrite Ex2, Ep2, Ep, (proj1 (Hfull _ _ RX2)) in H3. inversion H3; subst xe. clear H3.
    split; [exact Rc|]. unfold eval_f in H. unfold memorize in H.
    repeat (apply bind_ok in H; destruct H as (? & _ & H)). inversion H. cbn [m_ev].
    intros m n xx y g Hx Hy Hg. unfold x2, mem_point. cbv zeta.
    assert (E1 : cell x1 m n = Some (mem_half c s1 g xx (o_z o m n))).
    { unfold x1, mem_half. apply cell_map2_some; auto. unfold u1.
      apply (cell_amapi _ _ (fun k n v => cbo_update c v (s_lamda s1) (s_dt s1) (s_sigma s1) (c_noise c (s_dt s1) v (o_z o k n)))). apply Ccd; auto. }
    apply cell_map2_some; auto. unfold u2. apply (cell_amapi _ _ (fun k n v => cbo_update c v (p_lm p) (s_dt s1) (p_sm p) (c_noise c (s_dt s1) v (z2 k n)))).
    apply cell_map2_some; auto.
  Qed.

  Theorem mem_move : forall (c : cfg) p (o : orc) z2 ms log ms', c_corr c = NoCorr -> one_consensus_point c ->
    mem_exec CBOMem c ms log -> perms_valid o (m_s ms) -> s_active (m_s ms) <> [] -> c_bsize c = s_N (m_s ms) -> mem_step CBOMem c p o z2 ms = Ok ms' ->
    exists cpt, rect (s_M (m_s ms)) 1 cpt /\ cc_call c (s_energy (m_s ms)) (m_y ms) (s_alpha (m_s ms)) = Ok cpt /\
      forall m n x y g, cell (s_x (m_s ms)) m n = Some x -> cell (m_y ms) m n = Some y ->
        cell cpt m 0 = Some g -> cell (m_ev ms') m n = Some (mem_point c p (m_s ms) g x y (o_z o m n) (z2 m n)).
  Proof.
    intros c p o z2 ms log ms' NC OC HE P Hne Hb H. pose proof (mem_exec_wf _ _ _ _ HE) as W.
    destruct (mem_step_ok _ _ _ _ _ _ _ W (perms_valid_ok _ _ P) Hne H) as (A1 & A2 & _).
    destruct W as [W Ry Rv]. unfold mem_step in H.
    destruct (pre_ready c o (m_s ms) W (perms_valid_ok _ _ P) Hne) as (ci & pi & ind & Epre & R & Hind). rewrite Epre in H. cbn [bind] in H.
    pose proof (pre_cidx _ _ _ _ Epre) as Hci.
    set (s1 := set_pidx pi _) in *.
    apply bind_ok in H. destruct H as (ms2 & H1 & H). apply bind_ok in H. destruct H as (s3 & H3 & H). inversion H; subst ms'. clear H.
    cbn [m_s m_ev] in *.
    destruct (mem_inner_move c p o z2 (mkmst s1 (m_y ms) (m_v ms) (m_ev ms)) ms2 NC OC R) as (cpt & Hc & Rc & Hmv); auto.
    cbn [m_s m_y m_v] in *. exists cpt. split; auto. split; [|exact Hmv].
    assert (Ec1 : c_bsize c = s_N s1) by exact Hb.
    assert (Eac : s_active s1 = s_active (m_s ms)) by reflexivity.
    assert (Ee : s_energy s1 = s_energy (m_s ms)) by reflexivity. assert (Eal : s_alpha s1 = s_alpha (m_s ms)) by reflexivity.
    assert (EM : s_M s1 = s_M (m_s ms)) by reflexivity. assert (EN : s_N s1 = s_N (m_s ms)) by reflexivity.
    specialize (Hci Hb). clearbody s1. clear Epre Hmv H1 H3.
    destruct (full_idx _ _ R) as [Ea Hfull]. { congruence. } { rewrite EN. auto. }
    unfold mem_consensus in Hc. rewrite Hci, (proj1 (Hfull _ (m_y ms) ltac:(rewrite EM, EN; auto))) in Hc. cbn [bind] in Hc. rewrite Ea in Hc.
    pose proof (proj1 (rd_al _ _ R)) as Lal. rewrite <- Lal, takeM_all in Hc. cbn [bind] in Hc. rewrite <- Ee, <- Eal. exact Hc.
  Qed.
End Move2.
