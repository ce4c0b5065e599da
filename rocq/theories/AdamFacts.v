(** * AdamCBO: moments and bias correction *)
From Coq Require Import String List Arith Bool Permutation Lia Reals Lra.
From Verif Require Import Scalar ScalarFacts RFacts Np NpFacts State Pdyn PdynFacts PdynStep PdynRun PdynOk Exec BcFacts StepFrame
  Memory MemSpec MemFacts MemFacts2 MemFacts3 MemMove Variant VarSpec VarFacts VarMove RVec MemRaise HeaviFacts AdamSpec.
Import ListNotations.
Open Scope nat_scope.
Open Scope list_scope.

Section Generic.
  Context {K V : Type} {O : KOps K}.
  Notation F := (fl K).
  Notation st := (st K V).
  Notation cfg := (cfg K V).
  Notation orc := (orc V).

  Lemma gather_sel : forall A act M N nb i (X : arr A), gidx act M N i -> (forall m, In m act -> m < M) -> rect M N X ->
    selects act N nb i ->
    exists Y, gather i X = Ok Y /\ rect (length act) nb Y /\
      forall k m j n, nth_error act k = Some m -> nth_error (sel i k N) j = Some n -> cell Y k j = cell X m n.
  Proof.
    intros A act M N nb i X G L R S. destruct (gather_rect _ _ _ _ _ _ _ G L R S) as (Y & E & RY). exists Y. split; auto. split; auto.
    destruct (gather_rows _ _ _ _ _ _ G L R) as (Y' & E' & LY & HY). rewrite E in E'. injection E' as <-.
    intros k m j n Hk Hj. assert (Hm : m < length X) by (rewrite (proj1 R); apply L; eapply nth_error_In; eauto).
    destruct (nth_error_lt_Some _ _ _ Hm) as [row Er]. destruct (HY _ _ _ Hk Er) as (yr & Ey & T).
    unfold cell. rewrite Ey, Er. eapply takeM_nth; eauto.
  Qed.

  Lemma scatter_sel : forall A act M N nb i (X Y X' : arr A), gidx act M N i -> NoDup act -> (forall m, In m act -> m < M) -> rect M N X ->
    rect (length act) nb Y -> selects act N nb i -> scatter i X Y = Ok X' ->
    rect M N X' /\
    (forall k m n, nth_error act k = Some m -> n < N ->
       cell X' m n = match last_index n (sel i k N) with Some j => cell Y k j | None => cell X m n end) /\
    (forall m, ~ In m act -> nth_error X' m = nth_error X m).
  Proof.
    intros A act M N nb i X Y X' G D L R RY S H.
    assert (HL : forall k yr, nth_error Y k = Some yr -> length yr = length (sel i k N)).
    { intros k yr Hk. rewrite (proj2 RY _ _ Hk). symmetry. apply S. rewrite <- (proj1 RY). eapply nth_error_lt; eauto. }
    destruct (scatter_rows _ _ _ _ _ _ _ G D L R (proj1 RY) HL) as (X1 & E & R1 & H1 & H2).
    rewrite H in E. injection E as <-. split; auto. split; auto.
    intros k m n Hk Hn. assert (Hkl : k < length act) by (eapply nth_error_lt; eauto).
    assert (Hm : m < length X) by (rewrite (proj1 R); apply L; eapply nth_error_In; eauto).
    destruct (nth_error_lt_Some _ _ _ Hm) as [row Er].
    destruct (nth_error_lt_Some _ Y k) as [yr Ey]. { rewrite (proj1 RY). auto. }
    destruct (H1 _ _ _ _ Hk Er Ey) as (row' & E' & P).
    unfold cell. rewrite E', Ey, Er, (put1_nth _ _ _ _ _ n (HL _ _ Ey) P), (proj2 R _ _ Er).
    rewrite (proj2 (Nat.ltb_lt _ _) Hn). auto.
  Qed.

  (** bias-correction factor and update of one particle *)
  Definition adam_factor (b : F) (it : nat) : F := fdiv (Fin k1) (fsub (Fin k1) (fpow b (S it))).

  Definition adam_full (c : cfg) (s : st) : Prop := c_partial c = false \/ c_bsize c = s_N s.

  Lemma full_sel : forall (c : cfg) o s m, adam_full c s -> run_selp c o s m = seq 0 (s_N s).
  Proof.
    intros c o s m [H|H]; unfold run_selp. rewrite H. destruct (_ =? _); auto. rewrite H, Nat.eqb_refl. auto.
  Qed.

  Lemma post_step_drift : forall (c : cfg) (s s' : st), post_step c s = Ok s' ->
    s_drift s' = s_drift s /\ s_M s' = s_M s /\ s_N s' = s_N s /\ s_pidx s' = s_pidx s.
  Proof.
    intros c s s' H. apply post_step_frame in H. destruct H as (x & ud & fm & bcp & bce & be & bp & s5 & E & ->).
    apply track_frame in E. destruct E as (ti & ts & h & ->). sst. auto.
  Qed.

  Lemma selp_selects : forall (c : cfg) o s s0 sc ci pi cp, wf c s -> perm_ok o s -> cons_ok c o s s0 sc ci pi cp ->
    exists nb, selects (s_active s) (s_N s) nb pi.
  Proof.
    intros c o s s0 sc ci pi cp W P CO. exists (if c_bsize c =? s_N s then s_N s else if c_partial c then c_bsize c else s_N s).
    intros k Hk. destruct (nth_error_lt_Some _ _ _ Hk) as [r Hr]. rewrite (proj2 (co_sel _ _ _ _ _ _ _ _ CO _ _ Hr)).
    apply selp_len; auto. apply (w_actlt _ _ W). eapply nth_error_In; eauto.
  Qed.

  (** one step, for every batch setting *)
  Theorem adam_step_char : forall vsq vquot p (c : cfg) o s m v s' m' v', wf c s -> perms_valid o s -> one_consensus_point c ->
    s_active s <> [] -> rect (s_M s) (s_N s) m -> rect (s_M s) (s_N s) v ->
    vstep (adam_inner vsq vquot p) c o (s, (m, v)) = Ok (s', (m', v')) ->
    s_it s' = S (s_it s) /\
    (forall r, ~ In r (s_active s) -> nth_error m' r = nth_error m r /\ nth_error v' r = nth_error v r /\
       nth_error (s_x s') r = option_map (map (c_pp c)) (nth_error (s_x s) r)) /\
    exists d, s_drift s' = Some d /\
    forall k r n, nth_error (s_active s) k = Some r -> n < s_N s ->
      batch_pos s' k n = last_index n (run_selp c o s r) /\
      match last_index n (run_selp c o s r) with
      | None => cell m' r n = cell m r n /\ cell v' r n = cell v r n /\ cell (s_x s') r n = option_map (c_pp c) (cell (s_x s) r n)
      | Some j =>
        exists xv mv vv dv, cell (s_x s) r n = Some xv /\ cell m r n = Some mv /\ cell v r n = Some vv /\ cell d k j = Some dv /\
        (exists xr xb a cv, nth_error (s_x s) r = Some xr /\ nth_error (s_alpha s) r = Some [a] /\ takeM xr (run_sel c o s r) = Ok xb /\
           c_ccrow c (map (c_f c) xb) xb a = [cv] /\ dv = c_vsub c xv cv) /\
        let mn := c_vadd c (c_vscale c (a_b0 p) mv) (c_vscale c (fsub (Fin k1) (a_b0 p)) dv) in
        let vn := c_vadd c (c_vscale c (a_b1 p) vv) (c_vscale c (fsub (Fin k1) (a_b1 p)) (vsq dv)) in
        cell m' r n = Some mn /\ cell v' r n = Some vn /\
        cell (s_x s') r n = Some (c_pp c (c_vsub c xv
          (c_vsub c (c_vscale c (s_lamda s) (vquot (a_eps p) (c_vscale c (adam_factor (a_b0 p) (s_it s)) mn)
                                                              (c_vscale c (adam_factor (a_b1 p) (s_it s)) vn)))
             (c_vscale c (s_sigma s) (c_noise c (s_dt s) dv (o_z o k j))))))
      end.
  Proof.
    intros vsq vquot p c o s m v s' m' v' W P C1 HA Rm Rv H.
    pose proof (perms_valid_ok _ _ P) as PO.
    apply vstep_inv in H. destruct H as (s0 & s2 & E1 & E2 & E3).
    destruct (pre_cons_full c o s W PO) as (s0' & sc & ci & pi & cp & CO).
    rewrite (co_pre _ _ _ _ _ _ _ _ CO) in E1. injection E1 as <-.
    pose proof (cons_rect _ _ _ _ _ _ _ _ W PO C1 CO) as Rc.
    destruct (selp_selects _ _ _ _ _ _ _ _ W PO CO) as [nb S].
    unfold adam_inner in E2. rewrite (co_cons _ _ _ _ _ _ _ _ CO) in E2. cbn [bind] in E2.
    rewrite (the_cons_ok _ _ (co_cp _ _ _ _ _ _ _ _ CO)) in E2. cbn [bind] in E2.
    rewrite (co_pidx _ _ _ _ _ _ _ _ CO), (co_x _ _ _ _ _ _ _ _ CO), (co_it _ _ _ _ _ _ _ _ CO) in E2.
    pose proof (co_gp _ _ _ _ _ _ _ _ CO) as Gp.
    assert (L : forall r, In r (s_active s) -> r < s_M s) by apply W.
    assert (D : NoDup (s_active s)) by (apply incr_NoDup, W).
    assert (Rx : rect (s_M s) (s_N s) (s_x s)) by apply W.
    destruct (gather_sel _ _ _ _ _ _ _ Gp L Rx S) as (xp & Exp & Rxp & Cxp). rewrite Exp in E2. cbn [bind] in E2.
    apply bind_ok in E2. destruct E2 as (d & Hd & E2).
    destruct (bc2_col_cell _ _ _ _ _ _ _ _ _ Rxp Rc Hd) as [Rd Cd].
    destruct (gather_sel _ _ _ _ _ _ _ Gp L Rm S) as (mp & Emp & Rmp & Cmp). rewrite Emp in E2. cbn [bind] in E2.
    rewrite (bc2_same _ _ _ _ (length (s_active s)) nb) in E2 by (apply rect_map; auto). cbn [bind] in E2.
    apply bind_ok in E2. destruct E2 as (m1 & Hm1 & E2).
    apply (scatter_sel _ _ _ _ nb _ _ _ _ Gp D L Rm) in Hm1; auto. 2:{ apply rect_map2; apply rect_map; auto. }
    destruct Hm1 as (Rm1 & Cm1 & Im1).
    destruct (gather_sel _ _ _ _ _ _ _ Gp L Rv S) as (vp & Evp & Rvp & Cvp). rewrite Evp in E2. cbn [bind] in E2.
    rewrite (bc2_same _ _ _ _ (length (s_active s)) nb) in E2 by (apply rect_map; auto). cbn [bind] in E2.
    apply bind_ok in E2. destruct E2 as (v1 & Hv1 & E2).
    apply (scatter_sel _ _ _ _ nb _ _ _ _ Gp D L Rv) in Hv1; auto. 2:{ apply rect_map2; apply rect_map; auto. }
    destruct Hv1 as (Rv1 & Cv1 & Iv1).
    destruct (gather_sel _ _ _ _ _ _ _ Gp L Rm1 S) as (mq & Emq & Rmq & Cmq). rewrite Emq in E2. cbn [bind] in E2.
    destruct (gather_sel _ _ _ _ _ _ _ Gp L Rv1 S) as (vq & Evq & Rvq & Cvq). rewrite Evq in E2. cbn [bind] in E2.
    rewrite (bc2_same _ _ _ _ (length (s_active s)) nb) in E2 by (apply rect_map; auto). cbn [bind] in E2.
    rewrite (bc2_same _ _ _ _ (length (s_active s)) nb) in E2.
    2:{ apply rect_map, rect_map2; apply rect_map; auto. } 2:{ apply rect_amapi; auto. }
    cbn [bind] in E2.
    rewrite iop2_same in E2.
    2:{ rewrite (proj1 Rxp). symmetry. eapply (rect_map2 _ _ _ _ (length (s_active s)) nb).
        apply rect_map, rect_map2; apply rect_map; auto. apply rect_amapi; auto. }
    2:{ intros k x y Hx Hy. rewrite (proj2 Rxp _ _ Hx).
        match type of Hy with nth_error ?Y _ = _ => assert (RY : rect (length (s_active s)) nb Y) end.
        { apply rect_map2. apply rect_map, rect_map2; apply rect_map; auto. apply rect_amapi; auto. }
        apply (proj2 RY _ _ Hy). }
    cbn [bind] in E2.
    apply bind_ok in E2. destruct E2 as (x1 & Hx1 & E2).
    apply (scatter_sel _ _ _ _ nb _ _ _ _ Gp D L Rx) in Hx1; auto.
    2:{ apply rect_map2; auto. apply rect_map2. apply rect_map, rect_map2; apply rect_map; auto. apply rect_amapi; auto. }
    destruct Hx1 as (Rx1 & Cx1 & Ix1). injection E2 as <- <- <-.
    pose proof (post_step_drift _ _ _ E3) as (E4 & _ & _ & E6). apply post_step_x in E3. destruct E3 as (E3 & _ & E5). sstall.
    split. { rewrite E5. f_equal. apply CO. }
    split.
    { intros r Hr. split; auto. split; auto. rewrite E3, nth_error_map, Ix1; auto. }
    exists d. split; auto. intros k r n Hk Hn.
    pose proof (proj2 (co_sel _ _ _ _ _ _ _ _ CO _ _ Hk)) as Es.
    assert (Hka : k < length (s_active s)) by (eapply nth_error_lt; eauto).
    assert (Hr : r < s_M s) by (apply L; eapply nth_error_In; eauto).
    split.
    { unfold batch_pos. rewrite E6, (co_pidx _ _ _ _ _ _ _ _ CO), <- Es. unfold sel.
      destruct pi; auto; rewrite last_index_seq, (proj2 (Nat.ltb_lt _ _) Hn); auto. }
    rewrite E3, cell_map, (Cx1 _ _ _ Hk Hn), (Cm1 _ _ _ Hk Hn), (Cv1 _ _ _ Hk Hn), Es.
    destruct (last_index n (run_selp c o s r)) as [j|] eqn:Ej; auto.
    pose proof (last_index_Some _ _ _ Ej) as Hj. rewrite <- Es in Hj.
    assert (Hjn : j < nb). { rewrite <- (S k Hka). eapply nth_error_lt; eauto. }
    destruct (cell_rect _ _ _ _ r n Rx Hr Hn) as [xv Hxv]. destruct (cell_rect _ _ _ _ r n Rm Hr Hn) as [mv Hmv].
    destruct (cell_rect _ _ _ _ r n Rv Hr Hn) as [vv Hvv]. destruct (cell_rect _ _ _ _ k j Rd Hka Hjn) as [dv Hdv].
    exists xv, mv, vv, dv. split; auto. split; auto. split; auto. split; auto. split.
    { destruct (row_at_Some c s r W Hr) as (ro & _ & Ex & _ & Ea & _).
      pose proof (proj2 (w_al _ _ W) _ _ Ea) as La. destruct (r_a ro) as [|a [|]] eqn:Era; try discriminate.
      destruct (co_row _ _ _ _ _ _ _ _ CO _ _ _ _ Hk Ex Ea) as (xb & Tx & Ec).
      pose proof (proj2 Rc _ _ Ec) as Lc. destruct (c_ccrow c (map (c_f c) xb) xb a) as [|cv [|]] eqn:Ecv; try discriminate.
      exists (r_x ro), xb, a, cv. split; auto. split; auto. split; auto. split; auto.
      assert (E : cell d k j = Some (c_vsub c xv cv)). { apply Cd. rewrite (Cxp _ _ _ _ Hk Hj). auto. unfold cell. rewrite Ec. auto. }
      rewrite Hdv in E. injection E as ->. auto. }
    cbv zeta.
    assert (Qm : cell m1 r n = Some (c_vadd c (c_vscale c (a_b0 p) mv) (c_vscale c (fsub (Fin k1) (a_b0 p)) dv))).
    { rewrite (Cm1 _ _ _ Hk Hn), Es, Ej, cell_map2, !cell_map, (Cmp _ _ _ _ Hk Hj), Hmv, Hdv. auto. }
    assert (Qv : cell v1 r n = Some (c_vadd c (c_vscale c (a_b1 p) vv) (c_vscale c (fsub (Fin k1) (a_b1 p)) (vsq dv)))).
    { rewrite (Cv1 _ _ _ Hk Hn), Es, Ej, cell_map2, !cell_map, (Cvp _ _ _ _ Hk Hj), Hvv, Hdv. auto. }
    rewrite (Cm1 _ _ _ Hk Hn), Es, Ej in Qm. rewrite (Cv1 _ _ _ Hk Hn), Es, Ej in Qv.
    split; auto. split; auto.
    rewrite cell_map2, (Cxp _ _ _ _ Hk Hj), Hxv.
    rewrite cell_map2, cell_map, cell_map2, !cell_map, (Cmq _ _ _ _ Hk Hj), (Cvq _ _ _ _ Hk Hj).
    rewrite (Cm1 _ _ _ Hk Hn), (Cv1 _ _ _ Hk Hn), Es, Ej, Qm, Qv.
    rewrite (cell_amapi _ _ _ _ _ _ _ Hdv). cbn [option_map].
    rewrite (co_la _ _ _ _ _ _ _ _ CO), (co_sg _ _ _ _ _ _ _ _ CO), (co_dt _ _ _ _ _ _ _ _ CO). auto.
  Qed.

  (** an inner step that only changes x, the drift and the counters is followed by a successful post_step *)
  Lemma post_ok : forall (c : cfg) o s s0 sc ci pi cp x' d fc nf, wf c s -> perm_ok o s -> cons_ok c o s s0 sc ci pi cp ->
    rect (s_M s) (s_N s) x' -> exists s', post_step c (set_x x' (set_drift (Some d) (set_fcalls fc (set_nfe nf sc)))) = Ok s'.
  Proof.
    intros c o s s0 sc ci0 pi0 cp0 x' d fc nf W P CO Rx.
    destruct (pre_step_char c o s W P) as (ci & pi & ind & Epre & Gc & Gp & Hsel & Hind1 & Hind2).
    pose proof (co_pre _ _ _ _ _ _ _ _ CO) as E1. rewrite Epre in E1. injection E1 as <-.
    assert (Hsl : forall k, k < length (s_active s) -> length (sel ci k (s_N s)) = c_bsize c).
    { intros k Hk. destruct (nth_error_lt_Some _ _ _ Hk) as [m Hm]. rewrite (proj1 (Hsel _ _ Hm)).
      apply run_sel_length; auto. apply W. eapply nth_error_In; eauto. }
    pose proof (co_cons _ _ _ _ _ _ _ _ CO) as Ecc0.
    pose proof (incr_NoDup _ (w_act _ _ W)) as Hnd.
    match type of Ecc0 with compute_consensus c ?z = _ => set (s1 := z) in * end.
    destruct (compute_consensus_char c s1) as
      (cep' & en & cp & nb & xs & Ecc & Exs & Esv & Ren & Hcep & Lcp & Hnb & Hrow & Hinact);
      unfold s1 in *; sstall; auto; try apply W.
    { intros. rewrite !Hsl; auto. }
    rewrite Ecc in Ecc0. injection Ecc0 as <-.
    match goal with |- exists s', post_step c ?z = _ => set (s2 := z) in * end.
    destruct (post_step_char c s2 (s_x s)) as (s'' & Ep & _); subst s2; sstall; auto; try apply W; eauto. discriminate.
  Qed.

  Theorem adam_step_ok : forall vsq vquot p (c : cfg) o s m v, wf c s -> perms_valid o s -> one_consensus_point c ->
    s_active s <> [] -> rect (s_M s) (s_N s) m -> rect (s_M s) (s_N s) v ->
    exists r, vstep (adam_inner vsq vquot p) c o (s, (m, v)) = Ok r.
  Proof.
    intros vsq vquot p c o s m v W P C1 HA Rm Rv. pose proof (perms_valid_ok _ _ P) as PO.
    destruct (pre_cons_full c o s W PO) as (s0 & sc & ci & pi & cp & CO).
    pose proof (cons_rect _ _ _ _ _ _ _ _ W PO C1 CO) as Rc.
    assert (HI : exists r, adam_inner vsq vquot p c o s0 (m, v) = Ok r).
    { unfold adam_inner. rewrite (co_cons _ _ _ _ _ _ _ _ CO). cbn [bind].
      rewrite (the_cons_ok _ _ (co_cp _ _ _ _ _ _ _ _ CO)). cbn [bind].
      rewrite (co_pidx _ _ _ _ _ _ _ _ CO), (co_x _ _ _ _ _ _ _ _ CO), (co_it _ _ _ _ _ _ _ _ CO).
      pose proof (co_gp _ _ _ _ _ _ _ _ CO) as Gp.
      assert (L : forall r, In r (s_active s) -> r < s_M s) by apply W.
      assert (D : NoDup (s_active s)) by (apply incr_NoDup, W).
      assert (Rx : rect (s_M s) (s_N s) (s_x s)) by apply W.
      destruct (selp_selects _ _ _ _ _ _ _ _ W PO CO) as [nb S].
      destruct (gather_sel _ _ _ _ _ _ _ Gp L Rx S) as (xp & Exp & Rxp & Cxp). rewrite Exp. cbn [bind].
      destruct (bc2_col _ _ _ (c_vsub c) _ _ _ _ Rxp Rc) as (d & Ed & Rd). rewrite Ed. cbn [bind].
      destruct (gather_sel _ _ _ _ _ _ _ Gp L Rm S) as (mp & Emp & Rmp & Cmp). rewrite Emp. cbn [bind].
      rewrite (bc2_same _ _ _ _ (length (s_active s)) nb) by (apply rect_map; auto). cbn [bind].
      match goal with |- context [scatter pi m ?Y] => destruct (scatter_rect _ _ _ _ nb _ m Y Gp D L Rm S) as (m1 & E1 & R1) end.
      { apply rect_map2; apply rect_map; auto. } rewrite E1. cbn [bind].
      destruct (gather_sel _ _ _ _ _ _ _ Gp L Rv S) as (vp & Evp & Rvp & Cvp). rewrite Evp. cbn [bind].
      rewrite (bc2_same _ _ _ _ (length (s_active s)) nb) by (apply rect_map; auto). cbn [bind].
      match goal with |- context [scatter pi v ?Y] => destruct (scatter_rect _ _ _ _ nb _ v Y Gp D L Rv S) as (v1 & E2 & R2) end.
      { apply rect_map2; apply rect_map; auto. } rewrite E2. cbn [bind].
      destruct (gather_sel _ _ _ _ _ _ _ Gp L R1 S) as (mq & Emq & Rmq & Cmq). rewrite Emq. cbn [bind].
      destruct (gather_sel _ _ _ _ _ _ _ Gp L R2 S) as (vq & Evq & Rvq & Cvq). rewrite Evq. cbn [bind].
      rewrite (bc2_same _ _ _ _ (length (s_active s)) nb) by (apply rect_map; auto). cbn [bind].
      rewrite (bc2_same _ _ _ _ (length (s_active s)) nb).
      2:{ apply rect_map, rect_map2; apply rect_map; auto. } 2:{ apply rect_amapi; auto. }
      cbn [bind].
      match goal with |- context [iop2 (c_vsub c) xp ?Y] => assert (RY : rect (length (s_active s)) nb Y) end.
      { apply rect_map2. apply rect_map, rect_map2; apply rect_map; auto. apply rect_amapi; auto. }
      rewrite iop2_same. 2:{ rewrite (proj1 Rxp), (proj1 RY). auto. }
      2:{ intros k x y Hx Hy. rewrite (proj2 Rxp _ _ Hx). apply (proj2 RY _ _ Hy). }
      cbn [bind].
      match goal with |- context [scatter pi (s_x s) ?Y] => destruct (scatter_rect _ _ _ _ nb _ (s_x s) Y Gp D L Rx S) as (x1 & E3 & R3) end.
      { apply rect_map2; auto. } rewrite E3. cbn [bind]. eauto. }
    destruct HI as ([s2 [m2 v2]] & HI).
    destruct (adam_regular vsq vquot p c o s s0 sc ci pi cp (m, v) s2 (m2, v2) I W PO HA CO (conj Rm Rv) HI) as (x' & d & fc & nf & -> & _ & R & _).
    destruct (post_ok c o s s0 sc ci pi cp x' d fc nf W PO CO R) as (s' & E).
    unfold vstep. cbn [fst snd]. rewrite (co_pre _ _ _ _ _ _ _ _ CO). cbn [bind]. rewrite HI. cbn [bind fst snd]. rewrite E. cbn [bind]. eauto.
  Qed.
End Generic.
