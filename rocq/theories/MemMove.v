(** * CBOMemory and PSO: the recorded best of the first step, the PSO drift *)
From Coq Require Import String List Arith Bool Lia Permutation Reals Lra.
From Verif Require Import Scalar ScalarFacts Np NpFacts State Pdyn PdynFacts PdynStep PdynRun Exec PdynOk RunFacts StepFrame BestFacts BcFacts HeaviFacts Memory MemSpec MemFacts MemFacts2 MemFacts3 MemRaise.
Import ListNotations.
Open Scope nat_scope.
Open Scope list_scope.

Section Move.
  Context {K V : Type} {O : KOps K} {OO : KOrd K}.
  Notation F := (fl K).
  Notation st := (st K V).
  Notation cfg := (cfg K V).
  Notation orc := (orc V).
  Notation mst := (mst K V).
  Notation mpar := (mpar K).

  (** what the first step records *)
  Theorem first_best : forall k (c : cfg) p (o : orc) z2 ms log ms' m, mem_exec k c ms log -> perms_valid o (m_s ms) ->
    s_active (m_s ms) <> [] -> mem_step k c p o z2 ms = Ok ms' -> m < s_M (m_s ms) ->
    nth_error (s_be (m_s ms)) m = Some PInf ->
    (forall n e, cell (s_energy (m_s ms')) m n = Some e -> is_nan e = false) ->
    (exists n e, cell (s_energy (m_s ms')) m n = Some e /\ fltb e PInf = true) ->
    exists n e x, cell (s_energy (m_s ms')) m n = Some e /\
      (forall n' e', cell (s_energy (m_s ms')) m n' = Some e' -> fleb e e' = true) /\
      nth_error (s_be (m_s ms')) m = Some e /\ nth_error (s_bp (m_s ms')) m = Some x /\
      cell (match k with CBOMem => s_x (m_s ms') | Pso => s_x (m_s ms) end) m n = Some x.
  Proof.
    intros k c p o z2 ms log ms' m H P Hne Hs Hm Hb NN (n0 & e0 & He0 & Hlt0).
    pose proof (mem_exec_wf _ _ _ _ H) as W.
    destruct (mem_step_ok _ _ _ _ _ _ _ W (perms_valid_ok _ _ P) Hne Hs) as (A1 & A2 & A3 & A4 & A5 & A6 & A7 & A8 & A9 & A10 & A11 & A12).
    pose proof (mw_s _ _ W) as Ws. pose proof (mw_s _ _ A3) as Ws'.
    assert (Re : rect (s_M (m_s ms)) (s_N (m_s ms)) (s_energy (m_s ms'))) by (rewrite <- A4, <- A5; apply Ws').
    destruct (nth_error_lt_Some _ (s_energy (m_s ms')) m) as [er Her]. { rewrite (proj1 Re); auto. }
    destruct (nth_error_lt_Some _ (s_bp (m_s ms)) m) as [q Hq]. { rewrite (w_bp _ _ Ws); auto. }
    assert (Rs : rect (s_M (m_s ms)) (s_N (m_s ms)) (match k with CBOMem => s_x (m_s ms') | Pso => s_x (m_s ms) end)).
    { destruct k; [rewrite <- A4, <- A5; apply Ws'|apply Ws]. }
    destruct (nth_error_lt_Some _ (match k with CBOMem => s_x (m_s ms') | Pso => s_x (m_s ms) end) m) as [xr Hxr]. { exact (eq_ind_r (fun q => m < q) Hm (proj1 Rs)). }
    destruct (A12 _ _ _ _ _ Her Hb Hq Hxr) as (j & v & x & B1 & B2 & B3 & B4).
    assert (Hcell : forall n, cell (s_energy (m_s ms')) m n = nth_error er n) by (intros; unfold cell; rewrite Her; auto).
    assert (Hv : nth_error er j = Some v) by (eapply argmin_nth; eauto).
    assert (Hall : forall n' e', nth_error er n' = Some e' -> fleb v e' = true).
    { intros n' e' E'. eapply argmin_le; [|exact B1|eapply nth_error_In; eauto].
      intros a Ha. apply In_nth_error in Ha. destruct Ha as [i Hi]. eapply NN. rewrite Hcell. exact Hi. }
    assert (Hlt : fltb v PInf = true).
    { rewrite Hcell in He0. specialize (Hall _ _ He0). destruct v; auto; destruct e0; cbn in *; discriminate. }
    rewrite Hlt in B3, B4. exists j, v, x. rewrite Hcell. split; auto. split.
    { intros n' e'. rewrite Hcell. apply Hall. } split; auto. split; auto. destruct k; unfold cell; rewrite Hxr; auto.
  Qed.

  (** ** the move of PSO *)
  Lemma bc2_col_cell : forall A B C (f : A -> B -> C) M N X Y Z, rect M N X -> rect M 1 Y -> bc2 f X Y = Ok Z ->
    rect M N Z /\ forall m n a b, cell X m n = Some a -> cell Y m 0 = Some b -> cell Z m n = Some (f a b).
  Proof.
    intros A B C f M N X Y Z RX RY H. split. { destruct (bc2_col _ _ _ f _ _ _ _ RX RY) as (Z' & E & RZ). congruence. }
    rewrite bc2_rows in H; [|rewrite (proj1 RX), (proj1 RY); auto|intros k x y _ E2; left; apply (proj2 RY _ _ E2)].
    inversion H; subst Z. intros m n a b. unfold cell. rewrite map2_nth.
    destruct (nth_error X m) as [x|]; [|discriminate]. destruct (nth_error Y m) as [y|] eqn:E2; [|discriminate].
    pose proof (proj2 RY _ _ E2) as L. destruct y as [|b' [|]]; try discriminate. cbn [nth_error]. intros Ha Hb. inversion Hb; subst b'.
    unfold rowop. destruct x as [|a' [|a'' x]]; cbn in *.
    - destruct n; discriminate. - destruct n; [inversion Ha; auto|destruct n; discriminate].
    - change (nth_error (map (fun q => f q b) (a' :: a'' :: x)) n = Some (f a b)). rewrite nth_error_map. cbn [nth_error]. 
      change (option_map (fun q => f q b) (nth_error (a' :: a'' :: x) n) = Some (f a b)).
      assert (E : nth_error (a' :: a'' :: x) n = Some a) by exact Ha. rewrite E. auto.
  Qed.

  Lemma cell_amapi : forall A B (f : nat -> nat -> A -> B) X m n a, cell X m n = Some a -> cell (amapi f X) m n = Some (f m n a).
  Proof.
    intros A B f X m n a. unfold cell, amapi. rewrite mapi_nth. destruct (nth_error X m) as [r|]; [|discriminate]. cbn. intros H.
    rewrite mapi_nth, H. auto.
  Qed.
  Lemma cell_map_some : forall A B (f : A -> B) X m n a, cell X m n = Some a -> cell (map (map f) X) m n = Some (f a).
  Proof. intros. rewrite cell_map, H. auto. Qed.
  Lemma cell_map2_some : forall A B C (f : A -> B -> C) X Y m n a b, cell X m n = Some a -> cell Y m n = Some b ->
    cell (map2 (map2 f) X Y) m n = Some (f a b).
  Proof. intros. rewrite cell_map2, H, H0. auto. Qed.

  (** the update of one PSO particle at [x] with memory [y], velocity [v], consensus [g], draws [z], [z2] *)
  Definition pso_vel (c : cfg) (p : mpar) (s : st) (g x y v z z2 : V) : V :=
    c_vscale c (fdiv (Fin k1) (fadd (p_m p) (fmul (p_gamma p) (s_dt s))))
      (c_vadd c (c_vadd c (c_vadd c (c_vadd c (c_vscale c (fmul (p_m p) (s_dt s)) v)
         (c_vscale c (fmul (s_lamda s) (s_dt s)) (c_vsub c x g)))
         (c_vscale c (fmul (p_lm p) (s_dt s)) (c_vsub c x y)))
         (c_vscale c (s_sigma s) (c_noise c (s_dt s) (c_vsub c x g) z)))
         (c_vscale c (p_sm p) (c_noise c (s_dt s) (c_vsub c x y) z2))).
  Definition pso_point (c : cfg) (p : mpar) (s : st) (g x y v z z2 : V) : V := c_vadd c x (c_vscale c (s_dt s) (pso_vel c p s g x y v z z2)).

  Lemma pso_inner_move : forall (c : cfg) p (o : orc) z2 ms ms', c_corr c = NoCorr -> one_consensus_point c ->
    ready c (m_s ms) -> length (s_active (m_s ms)) = s_M (m_s ms) -> nmoved c (s_N (m_s ms)) = s_N (m_s ms) ->
    rect (s_M (m_s ms)) (s_N (m_s ms)) (m_y ms) -> rect (s_M (m_s ms)) (s_N (m_s ms)) (m_v ms) ->
    pso_inner c p o z2 ms = Ok ms' ->
    exists cpt, pso_consensus c (m_s ms) (m_y ms) = Ok cpt /\ s_cons (m_s ms') = Some cpt /\ rect (s_M (m_s ms)) 1 cpt /\
      forall m n x y v g, cell (s_x (m_s ms)) m n = Some x -> cell (m_y ms) m n = Some y -> cell (m_v ms) m n = Some v ->
        cell cpt m 0 = Some g -> cell (m_ev ms') m n = Some (pso_point c p (m_s ms) g x y v (o_z o m n) (z2 m n)) /\
        cell (m_v ms') m n = Some (pso_vel c p (m_s ms) g x y v (o_z o m n) (z2 m n)).
  Proof.
    intros c p o z2 ms ms' NC OC R HA Hn Ry Rv H. set (s1 := m_s ms) in *. set (M := s_M s1) in *. set (N := s_N s1) in *.
    destruct (full_idx _ _ R HA Hn) as [Ea Hfull]. pose proof (rd_e _ _ R) as Re. pose proof (rd_x _ _ R) as Rx.
    destruct (alpha_ok _ _ R) as (al & Eal & Ral). rewrite HA in Ral.
    unfold pso_inner in H. fold s1 in H. cbv zeta in H.
    apply bind_ok in H. destruct H as (cpt & Hc & H). exists cpt. split; [exact Hc|].
    assert (Rc : rect M 1 cpt).
    { unfold pso_consensus in Hc.
      destruct (gather_rect _ _ _ _ _ _ (m_y ms) (rd_c _ _ R) (rd_lt _ _ R) Ry (rd_cs _ _ R)) as (yb & Eyb & Ryb). rewrite HA in Ryb.
      destruct (gather_rect _ _ _ _ _ _ (s_energy s1) (rd_c _ _ R) (rd_lt _ _ R) Re (rd_cs _ _ R)) as (eb & Eeb & Reb). rewrite HA in Reb.
      rewrite Eyb in Hc. cbn [bind] in Hc. rewrite Eeb in Hc. cbn [bind] in Hc. rewrite Eal in Hc. cbn [bind] in Hc.
      destruct (cc_call_ok c eb yb al _ _ _ OC Reb Ryb Ral) as (cpt' & E & Rc'); auto. rewrite Hc in E. inversion E; subst cpt'. exact Rc'. }
    ssti H. rewrite (proj1 (Hfull _ _ Rx)) in H. cbn [bind] in H.
    apply bind_ok in H. destruct H as (cd & Hcd & H). destruct (bc2_col_cell _ _ _ _ _ _ _ _ _ Rx Rc Hcd) as [Rcd Ccd]. clear Hcd.
    rewrite (proj1 (Hfull _ _ Ry)) in H. cbn [bind] in H. rewrite (bc2_same _ _ _ _ _ _ _ _ Rx Ry) in H. cbn [bind] in H.
    pose proof (rect_map2 _ _ _ (c_vsub c) _ _ _ _ Rx Ry) as Rmd. set (md := map2 _ (s_x s1) (m_y ms)) in *.
    rewrite (proj1 (Hfull _ _ Rv)) in H. cbn [bind] in H.
    apply bind_ok in H. destruct H as ([kd s2] & Hk & H). unfold correction in Hk. rewrite NC in Hk. inversion Hk; subst kd s2. clear Hk. ssti H.
    pose proof (rect_map _ _ (c_vscale c (fmul (s_lamda s1) (s_dt s1))) _ _ _ Rcd) as R0. set (kd := map _ cd) in *.
    pose proof (rect_map _ _ (c_vscale c (fmul (p_m p) (s_dt s1))) _ _ _ Rv) as R1. set (u1 := map _ (m_v ms)) in *.
    rewrite (bc2_same _ _ _ _ _ _ _ _ R1 R0) in H. cbn [bind] in H.
    pose proof (rect_map2 _ _ _ (c_vadd c) _ _ _ _ R1 R0) as RA1. set (a1 := map2 _ u1 kd) in *.
    pose proof (rect_map _ _ (c_vscale c (fmul (p_lm p) (s_dt s1))) _ _ _ Rmd) as R2. set (u2 := map _ md) in *.
    rewrite (bc2_same _ _ _ _ _ _ _ _ RA1 R2) in H. cbn [bind] in H.
    pose proof (rect_map2 _ _ _ (c_vadd c) _ _ _ _ RA1 R2) as RA2. set (a2 := map2 _ a1 u2) in *.
    pose proof (rect_amapi _ _ (fun k n d => c_vscale c (s_sigma s1) (c_noise c (s_dt s1) d (o_z o k n))) _ _ _ Rcd) as R3.
    set (u3 := amapi _ cd) in *.
    rewrite (bc2_same _ _ _ _ _ _ _ _ RA2 R3) in H. cbn [bind] in H.
    pose proof (rect_map2 _ _ _ (c_vadd c) _ _ _ _ RA2 R3) as RA3. set (a3 := map2 _ a2 u3) in *.
    pose proof (rect_amapi _ _ (fun k n d => c_vscale c (p_sm p) (c_noise c (s_dt s1) d (z2 k n))) _ _ _ Rmd) as R4.
    set (u4 := amapi _ md) in *.
    rewrite (bc2_same _ _ _ _ _ _ _ _ RA3 R4) in H. cbn [bind] in H.
    pose proof (rect_map2 _ _ _ (c_vadd c) _ _ _ _ RA3 R4) as RA4. set (a4 := map2 _ a3 u4) in *.
    pose proof (rect_map _ _ (c_vscale c (fdiv (Fin k1) (fadd (p_m p) (fmul (p_gamma p) (s_dt s1))))) _ _ _ RA4) as Rv'.
    set (v' := map _ a4) in *. rewrite (proj2 (Hfull _ _ Rv) v' Rv') in H. cbn [bind] in H.
    rewrite (proj1 (Hfull _ _ Rx)) in H. cbn [bind] in H. rewrite (proj1 (Hfull _ _ Rv')) in H. cbn [bind] in H.
    pose proof (rect_map _ _ (c_vscale c (s_dt s1)) _ _ _ Rv') as R5. set (u5 := map _ v') in *.
    rewrite (bc2_same _ _ _ _ _ _ _ _ Rx R5) in H. cbn [bind] in H.
    pose proof (rect_map2 _ _ _ (c_vadd c) _ _ _ _ Rx R5) as Rx'. set (x' := map2 _ (s_x s1) u5) in *.
    rewrite (proj2 (Hfull _ _ Rx) x' Rx') in H. cbn [bind] in H. rewrite (proj1 (Hfull _ _ Rx')) in H. cbn [bind] in H.
    match type of H with memorize c false ?s ?y ?v ?xe ?en = _ => assert (E : s_cons s = Some cpt) by reflexivity;
      rewrite (memorize_full c false s y v xe en) in H end; auto.
    2:{ destruct R. constructor; sst; auto. }
    2:{ apply rect_map; auto. }
    inversion H as [H']. clear H H'. cbn [m_s m_ev m_v]. split; [exact E|]. split; auto.
    intros m n x y v g Ex Ey Ev Eg. unfold x'.
    assert (Ecd := Ccd _ _ _ _ Ex Eg).
    assert (Emd : cell md m n = Some (c_vsub c x y)) by (apply cell_map2_some; auto).
    assert (Ev' : cell v' m n = Some (pso_vel c p s1 g x y v (o_z o m n) (z2 m n))).
    2:{ split; [|exact Ev']. unfold pso_point. apply cell_map2_some; auto. unfold u5. apply cell_map_some. exact Ev'. }
    unfold pso_vel, v'. apply cell_map_some. unfold a4.
    apply cell_map2_some; [|unfold u4; apply (cell_amapi _ _ (fun k n d => c_vscale c (p_sm p) (c_noise c (s_dt s1) d (z2 k n)))); auto].
    apply cell_map2_some; [|unfold u3; apply (cell_amapi _ _ (fun k n d => c_vscale c (s_sigma s1) (c_noise c (s_dt s1) d (o_z o k n)))); auto].
    apply cell_map2_some; [|apply cell_map_some; auto].
    apply cell_map2_some; apply cell_map_some; auto.
  Qed.

  Lemma post_cons : forall k (c : cfg) (s s' : st) cpt, mem_post_step k c s = Ok s' -> s_cons s = Some cpt -> s_cons s' = Some cpt.
  Proof.
    intros k c s s' cpt H E. unfold mem_post_step in H. cbv zeta in H.
    apply bind_ok in H. destruct H as (s3 & H3 & H). apply bind_ok in H. destruct H as (s5 & H5 & H). inversion H; subst s'. sst. clear H.
    assert (E3 : s_cons s3 = Some cpt).
    { match type of H3 with match _ with CBOMem => mem_update_best_cur ?s2 | Pso => _ end = _ =>
        assert (E2 : s_cons s2 = Some cpt) by (destruct (s_xold _); exact E); set (sx := s2) in * end.
      clearbody sx. destruct k; [unfold mem_update_best_cur in H3|unfold update_best_cur in H3];
      repeat (apply bind_ok in H3; destruct H3 as (? & _ & H3)); inversion H3; exact E2. }
    apply track_frame in H5. destruct H5 as (ti & ts & h & ->). exact E3.
  Qed.

  Lemma pre_cidx : forall (c : cfg) (o : orc) s s1, pre_step c o s = Ok s1 -> c_bsize c = s_N s -> s_cidx s1 = s_pidx s1.
  Proof.
    intros c o s s1 H Hb. unfold pre_step, set_batch_idx in H. ssti H. rewrite Hb, Nat.eqb_refl in H.
    inversion H; subst s1. unfold set_batch_idx_unbatched. sst. destruct (length (s_active s) =? s_M s); reflexivity.
  Qed.

  Theorem pso_move : forall (c : cfg) p (o : orc) z2 ms log ms', c_corr c = NoCorr -> one_consensus_point c ->
    mem_exec Pso c ms log -> perms_valid o (m_s ms) -> s_active (m_s ms) <> [] -> mem_step Pso c p o z2 ms = Ok ms' ->
    exists cpt, s_cons (m_s ms') = Some cpt /\ rect (s_M (m_s ms)) 1 cpt /\
      (c_bsize c = s_N (m_s ms) -> cc_call c (s_energy (m_s ms)) (m_y ms) (s_alpha (m_s ms)) = Ok cpt) /\
      forall m n x y v g, cell (s_x (m_s ms)) m n = Some x -> cell (m_y ms) m n = Some y -> cell (m_v ms) m n = Some v ->
        cell cpt m 0 = Some g -> cell (s_x (m_s ms')) m n = Some (c_pp c (pso_point c p (m_s ms) g x y v (o_z o m n) (z2 m n))) /\
          cell (m_v ms') m n = Some (pso_vel c p (m_s ms) g x y v (o_z o m n) (z2 m n)) /\
          cell (m_ev ms') m n = Some (pso_point c p (m_s ms) g x y v (o_z o m n) (z2 m n)).
  Proof.
    intros c p o z2 ms log ms' NC OC HE P Hne H. pose proof (mem_exec_wf _ _ _ _ HE) as W.
    destruct (mem_step_ok _ _ _ _ _ _ _ W (perms_valid_ok _ _ P) Hne H) as (A1 & A2 & _ & _ & _ & _ & _ & _ & _ & _ & A11 & _).
    destruct W as [W Ry Rv]. unfold mem_step in H.
    destruct (pre_ready c o (m_s ms) W (perms_valid_ok _ _ P) Hne) as (ci & pi & ind & Epre & R & Hind). rewrite Epre in H. cbn [bind] in H.
    pose proof (pre_cidx _ _ _ _ Epre) as Hci.
    set (s1 := set_pidx pi _) in *.
    apply bind_ok in H. destruct H as (ms2 & H1 & H). apply bind_ok in H. destruct H as (s3 & H3 & H). inversion H; subst ms'. clear H.
    cbn [m_s m_ev] in *.
    destruct (pso_inner_move c p o z2 (mkmst s1 (m_y ms) (m_v ms) (m_ev ms)) ms2 NC OC R) as (cpt & Hc & Ec & Rc & Hmv); auto.
    cbn [m_s m_y m_v] in *. exists cpt. split. { eapply post_cons; eauto. } split; auto. split.
    - intros Hb. assert (Ec1 : c_bsize c = s_N s1) by exact Hb.
      assert (Eac : s_active s1 = s_active (m_s ms)) by reflexivity.
      assert (Ee : s_energy s1 = s_energy (m_s ms)) by reflexivity. assert (Eal : s_alpha s1 = s_alpha (m_s ms)) by reflexivity.
      assert (EM : s_M s1 = s_M (m_s ms)) by reflexivity. assert (EN : s_N s1 = s_N (m_s ms)) by reflexivity.
      specialize (Hci Hb). clearbody s1. clear Epre Hmv H1 H3 A11.
      destruct (full_idx _ _ R) as [Ea Hfull]. { congruence. } { rewrite EN. auto. }
      unfold pso_consensus in Hc. rewrite Hci, (proj1 (Hfull _ (m_y ms) ltac:(rewrite EM, EN; auto))) in Hc. cbn [bind] in Hc.
      rewrite (proj1 (Hfull _ _ (rd_e _ _ R))) in Hc. cbn [bind] in Hc. rewrite Ea in Hc.
      pose proof (proj1 (rd_al _ _ R)) as Lal. rewrite <- Lal, takeM_all in Hc. cbn [bind] in Hc. rewrite <- Ee, <- Eal. exact Hc.
    - intros m n x y v g H0 H2 H4 H5. destruct (Hmv m n x y v g H0 H2 H4 H5) as [Q1 Q2]. rewrite A11, cell_map. split; [rewrite Q1; reflexivity|split; [exact Q2|exact Q1]].
  Qed.
End Move.
