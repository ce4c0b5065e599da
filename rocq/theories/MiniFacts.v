(** * Noise-free CBO with mini-batches *)
From Coq Require Import String List Arith Bool Reals Permutation Lia Lra.
From Verif Require Import Scalar Np NpFacts State Pdyn PdynFacts PdynStep PdynRun PdynOk Exec RunFacts BatchFacts MoveFacts RVec RVecFacts
  Consensus ConsSpec ConsFacts PostProc Cbo CboSpec CboFacts AbsorbFacts MomentSpec MsSpec LimSpec LimFacts.
Import ListNotations.

Open Scope nat_scope.
Section Positions.
  Context {K V : Type} {O : KOps K}.
  Notation st := (st K V).
  Notation cfg := (cfg K V).
  Notation orc := (orc V).

  (** positions after a step: which particles move, in dependence of batch_partial *)
  Theorem step_positions_batch : forall (c : cfg) s log (o : orc) s' k m xr a,
    exec c s log -> perms_valid o s -> one_consensus_point c -> c_corr c = NoCorr -> step c o s = Ok s' ->
    nth_error (s_active s) k = Some m -> nth_error (s_x s) m = Some xr -> nth_error (s_alpha s) m = Some [a] ->
    exists xb cp xr', length xb = c_bsize c /\ xb <> [] /\ (forall v, In v xb -> In v xr) /\
      c_ccrow c (map (c_f c) xb) xb a = [cp] /\ nth_error (s_x s') m = Some xr' /\ length xr' = length xr /\
      (c_bsize c = s_N s \/ c_partial c = false -> xr' = mapi (fun n v => c_pp c (moved c s cp v (o_z o k n))) xr) /\
      (c_bsize c = s_N s \/ c_partial c = true -> forall n v, nth_error xr n = Some v -> exists v', nth_error xr' n = Some (c_pp c v') /\
         (v' = v \/ In v xb /\ exists i, v' = moved c s cp v (o_z o k i))).
  Proof.
    intros c s log o s' k m xr a E P CS NC HS Hk Hx Ha.
    pose proof (exec_wf _ _ _ E) as W. pose proof (perms_valid_ok _ _ P) as P'.
    assert (CC : cc_shape c (s_N s)) by (left; exact CS).
    destruct (step_char c o s W P' CC NC) as (s2 & HS2 & W' & _ & _ & _ & (cps & ds & _ & _ & _ & _ & HR) & _).
    rewrite HS in HS2. injection HS2 as <-.
    assert (Hm : m < s_M s) by (apply W; eapply nth_error_In; eauto).
    destruct (row_at_Some c s m W Hm) as (r & Hr & _).
    destruct (HR k m r Hk Hr) as (r1 & cpr & dr & r' & HM & _ & _ & HP & Hr').
    destruct (row_at_fields _ _ _ Hr) as (F1 & F2 & F3). destruct (row_at_fields _ _ _ Hr') as (G1 & _ & _).
    rewrite Hx in F1. injection F1 as F1. rewrite Ha in F2. injection F2 as F2.
    assert (Lxr : length xr = s_N s) by (eapply (proj2 (w_x _ _ W)); eauto).
    unfold run_move in HM. rewrite <- F2, <- F1 in HM.
    apply bind_ok in HM. destruct HM as (xb & HB & HM). apply bind_ok in HM. destruct HM as (er & _ & HM).
    apply bind_ok in HM. destruct HM as (xp & HXP & HM). cbv zeta in HM. apply bind_ok in HM. destruct HM as (xr1 & HPUT & HM).
    assert (EX : r_x r1 = xr1) by (inversion HM; reflexivity). clear HM.
    pose proof (run_post_x _ _ _ _ HP) as HX'. rewrite EX in HX'.
    assert (L1 := CS (map (c_f c) xb) xb a). destruct (c_ccrow c (map (c_f c) xb) xb a) as [|cp [|]] eqn:EC; try discriminate.
    rewrite rowop_one in HPUT.
    assert (EU : forall l, map2 (c_vadd c) l (mapi (fun n v => cbo_update c v (s_lamda s) (s_dt s) (s_sigma s) (c_noise c (s_dt s) v (o_z o k n))) (map (fun v => c_vsub c v cp) l)) =
       mapi (fun n v => moved c s cp v (o_z o k n)) l).
    { intros l. apply nth_error_ext. intros n. rewrite map2_nth, !mapi_nth, nth_error_map. destruct (nth_error l n); reflexivity. }
    rewrite EU in HPUT.
    pose proof (takeM_length _ _ _ _ HB) as LB. pose proof (run_sel_length c o s m W P' Hm) as LS.
    exists xb, cp, (r_x r'). split; [congruence|]. split.
    { intros ->. rewrite LS in LB. destruct W. cbn in LB. lia. }
    split. { intros v. apply (takeM_In _ _ _ _ _ HB). }
    split; auto. split; auto. split. { rewrite HX', map_length. apply (put1_length _ _ _ _ _ HPUT). }
    split.
    - intros Hb. assert (S2 : run_selp c o s m = seq 0 (s_N s)).
      { unfold run_selp. destruct Hb as [Hb|Hb]; rewrite Hb; [rewrite Nat.eqb_refl|destruct (_ =? _)]; auto. }
      rewrite S2, <- Lxr, takeM_all in HXP. injection HXP as <-.
      rewrite S2, <- Lxr, put1_all in HPUT by (rewrite mapi_length; auto). injection HPUT as <-.
      rewrite HX'. apply nth_error_ext. intros n. rewrite nth_error_map, !mapi_nth. destruct (nth_error xr n); reflexivity.
    - intros Hb. assert (S2 : run_selp c o s m = run_sel c o s m).
      { unfold run_selp, run_sel. destruct Hb as [Hb|Hb]; rewrite Hb; [rewrite Nat.eqb_refl|destruct (_ =? _)]; auto. }
      rewrite S2 in HXP, HPUT. rewrite HXP in HB. injection HB as ->.
      intros n v Hn. rewrite HX'.
      assert (LL : length (mapi (fun n v => moved c s cp v (o_z o k n)) xb) = length (run_sel c o s m)) by (rewrite mapi_length; auto).
      pose proof (put1_nth _ _ _ _ _ n LL HPUT) as PN.
      rewrite nth_error_map, PN. destruct (last_index n (run_sel c o s m)) as [i|] eqn:EL.
      + apply last_index_Some in EL. pose proof (takeM_nth _ _ _ _ _ _ HXP EL) as T.
        rewrite (proj2 (Nat.ltb_lt _ _) (nth_error_lt _ _ _ _ Hn)), mapi_nth, T, Hn. cbn. eexists. split; [reflexivity|]. right. split; [|eauto].
        eapply nth_error_In. rewrite T. exact Hn.
      + rewrite Hn. cbn. exists v. auto.
  Qed.
End Positions.

Open Scope R_scope.
Section Cfg.
  Variables (f : vec -> fl R) (k : noise_model) (pp : vec -> vec) (b : nat) (partial cat : bool) (ks : list (crit R vec)) (save : bool).
  Let c := cbo_cfg f k pp NoCorr b partial cat ks save.
  Theorem full_step : forall s log o s' m d X la dt sg, exec c s log -> perms_valid o s -> finite_draws d o -> finite_obj d f ->
    finite_alpha s -> parameters la dt sg s -> b = s_N s \/ partial = false -> In m (s_active s) -> step c o s = Ok s' -> ensemble_at s m d X ->
    exists cp Y zs, length cp = d /\ ensemble (s_N s) d Y /\ length zs = length X /\ (forall z, In z zs -> length z = d) /\
      (exists a Xb, cp = gibbs_point a (map f (map floats Xb)) d Xb /\ (1 <= length Xb)%nat /\ incl Xb X) /\
      Y = map2 (fun x z => rmove k la dt sg cp x z) X zs /\
      nth_error (s_x s') m = Some (map pp (map floats Y)).
  Proof.
    intros s log o s' m d X la dt sg E P HD HF HA HP HB Hm HS [HX1 HX2].
    destruct (In_nth_error _ _ Hm) as (kk & Hk).
    pose proof (exec_wf _ _ _ E) as W. assert (Hlt : (m < s_M s)%nat) by (apply W; auto).
    destruct (HA m Hlt) as (a & Ha). assert (HN : (1 <= length X)%nat) by (rewrite (proj1 HX2); apply W).
    destruct (step_positions_batch c s log o s' kk m (map floats X) (Fin a) E P (cbo_one_point _ _ _ _ _ _ _ _) eq_refl HS Hk HX1 Ha)
      as (xb & cp & xr' & LB & NB & HI & HC & Hx' & _ & HU & _).
    specialize (HU HB). destruct (choose_points (fun q => In q X) xb) as (Xb & -> & HXb).
    { intros u Hu. apply HI in Hu. apply in_map_iff in Hu. destruct Hu as (q & <- & Hq). eauto. }
    assert (HLb : (1 <= length Xb)%nat) by (destruct Xb; [exfalso; apply NB; reflexivity|cbn; lia]).
    assert (Hdb : forall q, In q Xb -> length q = d) by (intros q Hq; apply HX2; auto).
    rewrite (ccrow_finite f k pp b partial cat ks save d) in HC by auto. injection HC as <-.
    set (cp := gibbs_point a (map f (map floats Xb)) d Xb) in *.
    assert (HZ : exists zs, length zs = length X /\ (forall z, In z zs -> length z = d) /\ (forall n, (n < length X)%nat -> o_z o kk n = floats (nth n zs []))).
    { clear - HD. generalize (length X). intros n. induction n as [|n (zs & L & H1 & H2)].
      - exists []. split; auto. split; [intros z []|intros; lia].
      - destruct (HD kk n) as (z & Hz & Lz). exists (zs ++ [z]). rewrite app_length. cbn. split; [lia|]. split.
        + intros z' H. apply in_app_or in H. destruct H as [H|[<-|[]]]; auto.
        + intros i Hi. destruct (Nat.eq_dec i n) as [->|]; [rewrite app_nth2, L, Nat.sub_diag by lia; auto|].
          rewrite app_nth1 by lia. apply H2. lia. }
    destruct HZ as (zs & Lz & Hz1 & Hz2). assert (Lc : length cp = d) by apply gibbs_point_length.
    exists cp, (map2 (fun x z => rmove k la dt sg cp x z) X zs), zs.
    split; auto. split.
    { split; [rewrite map2_length, (proj1 HX2) in *; lia|]. intros y Hy. apply In_nth_error in Hy. destruct Hy as (n & Hn).
      rewrite map2_nth in Hn. destruct (nth_error X n) eqn:E1; [|discriminate]. destruct (nth_error zs n) eqn:E2; [|discriminate].
      injection Hn as <-. apply length_rmove; auto. - apply HX2. eapply nth_error_In; eauto. - apply Hz1. eapply nth_error_In; eauto. }
    split; auto. split; auto. split; [exists a, Xb; auto|]. split; auto.
    rewrite Hx', HU. f_equal. apply nth_error_ext. intros n. rewrite mapi_nth, !nth_error_map, map2_nth.
    destruct (nth_error X n) as [x|] eqn:E1; cbn; auto. pose proof (nth_error_lt _ _ _ _ E1) as L1.
    destruct (nth_error_lt_Some _ zs n) as (z & E2); [lia|]. rewrite E2. cbn. do 2 f_equal.
    rewrite (Hz2 n L1). replace (nth n zs []) with z by (symmetry; apply nth_error_nth; auto). apply (moved_floats f k pp b partial cat ks save); auto.
  Qed.

  Lemma full_gen : forall (P : list (list R) -> Prop) s log m d n s' X la dt, exec c s log -> finite_obj d f -> finite_alpha s ->
    parameters la dt 0 s -> b = s_N s \/ partial = false -> ensemble_at s m d X -> P X ->
    (forall X Xb a zs Y, ensemble (s_N s) d X -> P X -> (1 <= length Xb)%nat -> incl Xb X -> length zs = length X -> (forall z, In z zs -> length z = d) ->
       Y = map2 (fun x z => rmove k la dt 0 (gibbs_point a (map f (map floats Xb)) d Xb) x z) X zs ->
       P Y /\ forall y, In y Y -> pp (floats y) = floats y) ->
    steps_active c m d s n s' ->
    (forall y, In y X -> pp (floats y) = floats y) ->
    exists Y, ensemble_at s' m d Y /\ P Y /\ diffs ((1 - la * dt) ^ n) X Y.
  Proof.
    intros P s log m d n s' X la dt E HF HA HP HB HX HPX HPres H Hfix0. induction H as [|n s1 o s2 H IH Hm PV HD HS|n s1 b' s2 H IH HT|n s1 s2 H IH HC].
    - exists X. split; auto. split; auto. intros i j xi xj yi yj A1 A2 A3 A4. rewrite A1 in A3. rewrite A2 in A4. injection A3 as <-. injection A4 as <-.
      cbn. symmetry. unfold vscal. rewrite (map_ext _ (fun x => x)) by (intros; ring). apply map_id.
    - destruct IH as (Y & HY & HPY & HDY).
      destruct (steps_keep f k pp b partial cat ks save s log m d n s1 la dt 0 E HA HP H) as ((l & E1) & A1 & P1 & N1 & M1).
      destruct (full_step s1 l o s2 m d Y la dt 0 E1 PV HD HF A1 P1 ltac:(rewrite N1; exact HB) Hm HS HY) as (cp & Z & zs & L1 & L2 & L3 & L4 & (a & Xb & -> & LXb & IXb) & HZ & Hx).
      assert (HYe : ensemble (s_N s) d Y) by (rewrite <- N1; apply HY).
      destruct (HPres Y Xb a zs Z HYe HPY LXb IXb L3 L4 HZ) as [Q1 Q2].
      destruct (step_keeps f k pp b partial cat ks save s1 l o s2 E1 PV HS) as (K1 & K2 & _).
      exists Z. split; [|split; auto].
      + split; [|rewrite K2; auto]. rewrite Hx. f_equal. rewrite map_map. apply map_ext_in. auto.
      + change ((1 - la * dt) ^ S n) with ((1 - la * dt) * (1 - la * dt) ^ n). apply (diffs_trans _ _ X Y Z); auto.
        { destruct HX as [_ [HX _]]. destruct HYe as [HYe _]. congruence. }
        intros i j xi xj yi yj B1 B2 B3 B4. subst Z. rewrite map2_nth, B1 in B3. rewrite map2_nth, B2 in B4.
        destruct (nth_error zs i) as [zi|] eqn:Z1; [|discriminate]. destruct (nth_error zs j) as [zj|] eqn:Z2; [|discriminate].
        injection B3 as <-. injection B4 as <-. apply (move_diff k _ _ _ _ _ _ _ d); auto;
          try (apply HYe; eapply nth_error_In; eassumption); apply L4; eapply nth_error_In; eassumption.
    - destruct IH as (Y & HY & HPY & HDY). destruct (term_keeps f k pp b partial cat ks save s1 b' s2 HT) as (K0 & K1 & K2 & _).
      exists Y. split; [|split; auto]. unfold ensemble_at. rewrite K0, K2. auto.
    - destruct IH as (Y & HY & HPY & HDY). exists Y. split; [|split; auto]. destruct HC as (al & -> & _). exact HY.
  Qed.

  (** no post-processing: any lamda * dt *)
  Theorem full_contraction : forall s log m d n s' X la dt, exec c s log -> finite_obj d f -> finite_alpha s ->
    parameters la dt 0 s -> b = s_N s \/ partial = false -> ensemble_at s m d X -> (forall p, length p = d -> pp (floats p) = floats p) ->
    steps_active c m d s n s' ->
    exists Y, ensemble_at s' m d Y /\ diffs ((1 - la * dt) ^ n) X Y.
  Proof.
    intros s log m d n s' X la dt E HF HA HP HB HX Hpp H.
    destruct (full_gen (fun _ => True) s log m d n s' X la dt E HF HA HP HB HX I) as (Y & H1 & _ & H2); auto.
    - intros X0 Xb a zs Y HX0 _ _ _ L3 L4 ->. split; auto. intros y Hy. apply Hpp. apply In_nth_error in Hy. destruct Hy as (i & Hi).
      rewrite map2_nth in Hi. destruct (nth_error X0 i) eqn:E1; [|discriminate]. destruct (nth_error zs i) eqn:E2; [|discriminate].
      injection Hi as <-. apply length_rmove; [apply gibbs_point_length|apply HX0; eapply nth_error_In; eauto|apply L4; eapply nth_error_In; eauto].
    - intros y Hy. apply Hpp. apply HX. auto.
    - eauto.
  Qed.

  Lemma full_box_step : forall d lo hi X Xb a zs la dt N, ensemble N d X -> (1 <= length Xb)%nat -> incl Xb X -> finite_obj d f -> (forall p, In p X -> in_box d lo hi p) ->
    0 <= la * dt <= 1 -> length zs = length X -> (forall z, In z zs -> length z = d) ->
    forall y, In y (map2 (fun x z => rmove k la dt 0 (gibbs_point a (map f (map floats Xb)) d Xb) x z) X zs) -> in_box d lo hi y /\ length y = d.
  Proof.
    intros d lo hi X Xb a zs la dt N HX HN HI HF HBox Hl L3 L4 y Hy. apply In_nth_error in Hy. destruct Hy as (i & Hi).
    rewrite map2_nth in Hi. destruct (nth_error X i) as [x|] eqn:E1; [|discriminate]. destruct (nth_error zs i) as [z|] eqn:E2; [|discriminate].
    injection Hi as <-. set (cp := gibbs_point a (map f (map floats Xb)) d Xb). apply nth_error_In in E1. apply nth_error_In in E2.
    assert (Lc : length cp = d) by apply gibbs_point_length. assert (Lx : length x = d) by (apply HX; auto). assert (Lz : length z = d) by auto.
    split; [|apply length_rmove; auto]. intros j Hj. rewrite (coord_rmove _ _ _ _ _ _ _ _ d) by auto.
    assert (B1 := HBox x E1 j Hj).
    assert (B2 : lo j <= coord j cp <= hi j).
    { apply (hull_coord a (map f (map floats Xb)) d Xb j (lo j) (hi j)); auto.
      - eapply finite_admissible; eauto. intros p Hp. apply HX. auto.
      - split; [rewrite !map_length; auto|intros p Hp; apply HX; auto].
      - intros p Hp. apply HBox; auto. }
    assert (0 <= la * dt * (coord j cp - lo j)) by (apply Rmult_le_pos; lra).
    assert (0 <= la * dt * (hi j - coord j cp)) by (apply Rmult_le_pos; lra).
    assert (0 <= (1 - la * dt) * (coord j x - lo j)) by (apply Rmult_le_pos; lra).
    assert (0 <= (1 - la * dt) * (hi j - coord j x)) by (apply Rmult_le_pos; lra).
    lra.
  Qed.

  Theorem full_box : forall s log m d n s' X la dt lo hi, exec c s log -> finite_obj d f -> finite_alpha s ->
    parameters la dt 0 s -> b = s_N s \/ partial = false -> ensemble_at s m d X -> 0 <= la * dt <= 1 ->
    (forall p, length p = d -> in_box d lo hi p -> pp (floats p) = floats p) -> (forall p, In p X -> in_box d lo hi p) ->
    steps_active c m d s n s' ->
    exists Y, ensemble_at s' m d Y /\ (forall p, In p Y -> in_box d lo hi p) /\ diffs ((1 - la * dt) ^ n) X Y.
  Proof.
    intros s log m d n s' X la dt lo hi E HF HA HP HB HX Hl Hpp HBox H.
    assert (HN : (1 <= s_N s)%nat) by (apply (exec_wf _ _ _ E)).
    apply (full_gen (fun X => forall p, In p X -> in_box d lo hi p) s log m d n s' X la dt E HF HA HP HB HX HBox); auto.
    - intros X0 Xb a zs Y HX0 HB0 LXb IXb L3 L4 ->.
      pose proof (full_box_step d lo hi X0 Xb a zs la dt (s_N s) HX0 LXb IXb HF HB0 Hl L3 L4) as Q.
      split; intros y Hy; destruct (Q y Hy); auto.
    - intros y Hy. apply Hpp; auto. apply HX; auto.
  Qed.
  Theorem full_limit : forall run log m d X la dt lo hi, exec c (run 0%nat) log -> finite_obj d f -> finite_alpha (run 0%nat) ->
    parameters la dt 0 (run 0%nat) -> b = s_N (run 0%nat) \/ partial = false -> ensemble_at (run 0%nat) m d X -> 0 < la * dt <= 1 ->
    (forall p, length p = d -> in_box d lo hi p -> pp (floats p) = floats p) -> (forall p, In p X -> in_box d lo hi p) -> endless c m d run ->
    exists p, length p = d /\ in_box d lo hi p /\ forall n, exists Y, ensemble_at (run n) m d Y /\
      forall y l, In y Y -> (l < d)%nat -> Rabs (coord l y - coord l p) <= (1 - la * dt) ^ n * (hi l - lo l).
  Proof.
    intros run log m d X la dt lo hi E HF HA HP HB HX Hl Hpp HBox HR. set (r := 1 - la * dt). assert (Hr : 0 <= r < 1) by (unfold r; lra).
    assert (HN : (1 <= s_N (run 0%nat))%nat) by (apply (exec_wf _ _ _ E)).
    assert (HE : forall n, exists Y, ensemble_at (run n) m d Y /\ (forall p, In p Y -> in_box d lo hi p) /\ diffs (r ^ n) X Y /\
      s_N (run n) = s_N (run 0%nat) /\ (exists l, exec c (run n) l) /\ finite_alpha (run n) /\ parameters la dt 0 (run n)).
    { intros n. pose proof (endless_steps f k pp b partial cat ks save m d run HR 0 n) as HS. cbn [plus] in HS.
      destruct (full_box (run 0%nat) log m d n (run n) X la dt lo hi) as (Y & A1 & A2 & A3); auto. lra.
      destruct (steps_keep f k pp b partial cat ks save (run 0%nat) log m d n (run n) la dt 0 E HA HP HS) as (B1 & B2 & B3 & B4 & B5).
      exists Y. auto 10. }
    assert (HXN : length X = s_N (run 0%nat)) by apply HX.
    (* all later points are within r^n (hi - lo) of all points of run n *)
    assert (HC : forall n j Y Z y z l, ensemble_at (run n) m d Y -> ensemble_at (run (n + j)%nat) m d Z -> In y Y -> In z Z -> (l < d)%nat -> Rabs (coord l z - coord l y) <= r ^ n * (hi l - lo l)).
    { intros n j Y Z y z l HY HZ Hy Hz Hld. destruct (HE n) as (Y' & A1 & A2 & A3 & A4 & (l1 & A5) & A6 & A7).
      assert (UN : forall s U V, ensemble_at s m d U -> ensemble_at s m d V -> U = V).
      { intros s U V (U1 & _) (V1 & _). rewrite U1 in V1. injection V1 as V1. clear - V1. revert V V1. induction U as [|u U IH]; intros [|v V] H; try discriminate; auto.
        cbn in H. injection H as H1 H2. f_equal; auto. clear - H1. revert v H1. induction u as [|a u IH]; intros [|e v] H; try discriminate; auto. cbn in H. injection H as H1 H2. f_equal; auto. }
      assert (Y' = Y) by (eapply UN; eauto). subst Y'.
      assert (NE : forall l, map (coord l) Y <> []). { intros l0 H0. apply map_eq_nil in H0. subst. destruct Hy. }
      set (lo' := fun l => lmin (map (coord l) Y)). set (hi' := fun l => lmax (map (coord l) Y)).
      assert (IB : forall p, In p Y -> in_box d lo' hi' p).
      { intros p Hp i Hi. split; [apply lmin_spec|apply lmax_spec]; auto; apply in_map; auto. }
      assert (SUB : forall p, in_box d lo' hi' p -> in_box d lo hi p).
      { intros p Hp i Hi. specialize (Hp i Hi). destruct (lmin_spec _ (NE i)) as (M1 & _). destruct (lmax_spec _ (NE i)) as (M2 & _). fold (lo' i) in M1. fold (hi' i) in M2.
        apply in_map_iff in M1. destruct M1 as (p1 & E1 & I1). apply in_map_iff in M2. destruct M2 as (p2 & E2 & I2).
        pose proof (A2 p1 I1 i Hi). pose proof (A2 p2 I2 i Hi). lra. }
      destruct (full_box (run n) l1 m d j (run (n + j)%nat) Y la dt lo' hi') as (Z' & C1 & C2 & _); auto.
      { rewrite A4. exact HB. } { lra. } { apply (endless_steps f k pp b partial cat ks save); auto. }
      assert (Z' = Z) by (eapply UN; eauto). subst Z'.
      assert (WD : hi' l - lo' l <= r ^ n * (hi l - lo l)).
      { destruct (lmin_spec _ (NE l)) as (M1 & _). destruct (lmax_spec _ (NE l)) as (M2 & _). fold (lo' l) in M1. fold (hi' l) in M2.
        apply in_map_iff in M1. destruct M1 as (p1 & E1 & I1). apply in_map_iff in M2. destruct M2 as (p2 & E2 & I2).
        apply In_nth_error in I1. destruct I1 as (i1 & I1). apply In_nth_error in I2. destruct I2 as (i2 & I2).
        assert (LY : length Y = length X). { destruct HY as (_ & HY & _). congruence. }
        destruct (nth_error_lt_Some _ X i1) as (x1 & X1). { apply nth_error_lt in I1. lia. } destruct (nth_error_lt_Some _ X i2) as (x2 & X2). { apply nth_error_lt in I2. lia. }
        pose proof (A3 i2 i1 x2 x1 p2 p1 X2 X1 I2 I1) as D. apply (f_equal (coord l)) in D.
        assert (LL : forall S q W, ensemble_at S m d W -> In q W -> length q = d) by (intros S q W HW Hq; apply HW; auto).
        assert (L1 : length p1 = d) by (eapply LL; [exact HY|eapply nth_error_In; eauto]). assert (L2 : length p2 = d) by (eapply LL; [exact HY|eapply nth_error_In; eauto]).
        assert (L3 : length x1 = d) by (eapply LL; [exact HX|eapply nth_error_In; eauto]). assert (L4 : length x2 = d) by (eapply LL; [exact HX|eapply nth_error_In; eauto]).
        rewrite coord_vscal, !coord_vsub in D by congruence. rewrite E1, E2 in D. rewrite D.
        pose proof (HBox x1 (nth_error_In _ _ X1) l Hld). pose proof (HBox x2 (nth_error_In _ _ X2) l Hld).
        apply Rmult_le_compat_l; [apply pow_le; lra|lra]. }
      pose proof (C2 z Hz l Hld). pose proof (IB y Hy l Hld). unfold Rabs. destruct (Rcase_abs _); lra. }
    set (u := fun l n => pick (run n) m 0 l).
    assert (HU : forall l n, (l < d)%nat -> exists Y y, ensemble_at (run n) m d Y /\ In y Y /\ u l n = coord l y).
    { intros l n Hld. destruct (HE n) as (Y & A1 & _ & _ & A4 & _). exists Y, (nth 0 Y []). split; auto. split.
      - apply nth_In. rewrite (proj1 (proj2 A1)). lia.
      - apply (pick_at _ _ d); auto. lia. }
    assert (HUC : forall l n j, (l < d)%nat -> Rabs (u l (n + j)%nat - u l n) <= (hi l - lo l) * r ^ n).
    { intros l n j Hld. destruct (HU l n Hld) as (Y & y & H1 & H2 & ->). destruct (HU l (n + j)%nat Hld) as (Z & z & H3 & H4 & ->). rewrite Rmult_comm. eapply HC; eauto. }
    assert (HW : forall l, (l < d)%nat -> 0 <= hi l - lo l).
    { intros l Hld. destruct (HE 0%nat) as (Y & A1 & A2 & _). destruct (HU l 0%nat Hld) as (Z & z & H1 & H2 & _). 
      destruct X as [|x X']; [cbn in HXN; lia|]. pose proof (HBox x (or_introl eq_refl) l Hld). lra. }
    assert (LIM : forall l, {L | (l < d)%nat -> Un_cv (u l) L}).
    { intros l. destruct (lt_dec l d) as [Hld|Hld]; [|exists 0; intros; lia].
      destruct (R_complete (u l)) as (L & HL). { apply (geometric_cauchy _ (hi l - lo l) r); auto. } exists L. auto. }
    set (p := map (fun l => proj1_sig (LIM l)) (seq 0 d)).
    assert (Hp : forall l, (l < d)%nat -> Un_cv (u l) (coord l p)).
    { intros l Hld. unfold coord, p. rewrite nth_map_seq by auto. apply (proj2_sig (LIM l)). auto. }
    exists p. split; [unfold p; rewrite map_length, seq_length; auto|]. split.
    - intros l Hld. apply (limit_range (u l)); auto. intros n. destruct (HU l n Hld) as (Y & y & H1 & H2 & ->). destruct (HE n) as (Y' & A1 & A2 & _).
      destruct H1 as (H1 & H1'). destruct A1 as (A1 & A1'). rewrite H1 in A1. injection A1 as A1.
      assert (Hy : In (floats y) (map floats Y')) by (rewrite <- A1; apply in_map; auto). apply in_map_iff in Hy. destruct Hy as (y' & Ey & Iy).
      assert (y' = y). { clear - Ey. revert y Ey. induction y' as [|a u IH]; intros [|e v] H; try discriminate; auto. cbn in H. injection H as H1 H2. f_equal; auto. } subst. apply A2; auto.
    - intros n. destruct (HE n) as (Y & A1 & A2 & _). exists Y. split; auto. intros y l Hy Hld.
      (* the constant sequence extended by y in front *)
      apply Rnot_lt_le. intros HB'. destruct (Hp l Hld (Rabs (coord l y - coord l p) - r ^ n * (hi l - lo l))) as (N & HNN). lra.
      specialize (HNN (n + N)%nat ltac:(lia)). unfold R_dist in HNN. destruct (HU l (n + N)%nat Hld) as (Z & z & H1 & H2 & Hz). rewrite Hz in HNN.
      pose proof (HC n N Y Z y z l A1 H1 Hy H2 Hld) as Q.
      assert (T : Rabs (coord l y - coord l p) <= Rabs (coord l z - coord l p) + Rabs (coord l z - coord l y)).
      { replace (coord l y - coord l p) with ((coord l z - coord l p) + - (coord l z - coord l y)) by ring. eapply Rle_trans; [apply Rabs_triang|]. rewrite Rabs_Ropp. lra. }
      lra.
  Qed.

  (** ** Batches of one particle, only the batch is moved *)
  Lemma one_step : forall s log o s' m d X, exec c s log -> perms_valid o s -> finite_draws d o -> finite_alpha s -> finite_parameters s ->
    k <> NConst -> finite_obj d f -> b = 1%nat -> partial = true -> (forall p, In p X -> pp (floats p) = floats p) -> step c o s = Ok s' ->
    ensemble_at s m d X -> ensemble_at s' m d X.
  Proof.
    intros s log o s' m d X E P HD HA (la & dt & sg & HP) Hk HF Hb Hpa Hpp HS [HX1 HX2].
    pose proof (exec_wf _ _ _ E) as W. destruct (step_keeps _ _ _ _ _ _ _ _ s log o s' E P HS) as (K1 & K2 & _). split; [|rewrite K2; exact HX2].
    assert (Hlt : (m < s_M s)%nat). { rewrite <- (proj1 (w_x _ _ W)). eapply nth_error_lt; eauto. }
    destruct (in_dec Nat.eq_dec m (s_active s)) as [Hm|Hm].
    - destruct (In_nth_error _ _ Hm) as (kk & Hkk). destruct (HA m Hlt) as (a & Ha).
      destruct (step_positions_batch c s log o s' kk m _ (Fin a) E P (cbo_one_point _ _ _ _ _ _ _ _) eq_refl HS Hkk HX1 Ha)
        as (xb & cp & xr' & LB & NB & HI & HC & Hx' & HL & _ & HU).
      specialize (HU (or_intror Hpa)). destruct (choose_points (fun q => In q X) xb) as (Xb & -> & HXb).
      { intros u Hu. apply HI in Hu. apply in_map_iff in Hu. destruct Hu as (q & <- & Hq). eauto. }
      rewrite map_length in LB. cbn [c cbo_cfg c_bsize] in LB. rewrite Hb in LB. destruct Xb as [|q [|]]; try discriminate LB.
      assert (Lq : length q = d) by (apply HX2; apply HXb; cbn; auto).
      rewrite (ccrow_finite f k pp b partial cat ks save d) in HC by (auto; intros p [<-|[]]; auto). injection HC as <-.
      rewrite (hull_single a _ d [q] q) in HU; auto.
      2:{ apply (finite_admissible f d [q]); auto. intros p [<-|[]]; auto. } 2:{ split; [reflexivity|intros p [<-|[]]; auto]. } 2:{ intros p [<-|[]]; auto. }
      rewrite Hx'. f_equal. apply nth_error_ext. intros n. destruct (nth_error (map floats X) n) as [v|] eqn:Hv.
      + destruct (HU n v Hv) as (v' & -> & HV). assert (Iv := nth_error_In _ _ Hv). apply in_map_iff in Iv. destruct Iv as (p & <- & Hp).
        transitivity (Some (floats p)); [f_equal|symmetry; exact Hv]. assert (v' = floats p); [|subst v'; exact (Hpp p Hp)].
        destruct HV as [->|[Iv (i & ->)]]; auto. destruct Iv as [Iv|[]]. destruct (HD kk i) as (z & -> & Lz). rewrite <- Iv.
        rewrite (moved_floats f k pp b partial cat ks save s la dt sg) by auto. rewrite rmove_same by (auto; congruence). reflexivity.
      + transitivity (@None vec); [|symmetry; exact Hv]. apply nth_error_None in Hv. apply nth_error_None. unfold vec in *. lia.
    - rewrite (step_positions_inactive c s log o s' m _ E P (cbo_plain _ _ _ _ _ _ _ _ _) HS Hm HX1). cbn [c cbo_cfg c_pp].
      f_equal. rewrite map_map. apply map_ext_in. auto.
  Qed.
  Theorem one_forever : forall s log m d X s', exec c s log -> finite_alpha s -> finite_parameters s ->
    k <> NConst -> finite_obj d f -> b = 1%nat -> partial = true -> (forall p, In p X -> pp (floats p) = floats p) ->
    ensemble_at s m d X -> later c d s s' -> ensemble_at s' m d X.
  Proof.
    intros s log m d X s' E HA HP Hk HF Hb Hpa Hpp HX H. induction H as [|s1 o s2 H IH P HD HS|s1 b' s2 H IH HT|s1 s2 H IH HC A2 P2|s1 H IH]; auto.
    - destruct (later_keep _ _ _ _ _ _ _ _ s log d s1 E HA HP H) as ((l & E1) & A1 & P1 & N1). eapply one_step; eauto.
    - destruct (term_keeps _ _ _ _ _ _ _ _ s1 b' s2 HT) as (K0 & K1 & K2 & _). unfold ensemble_at in *. rewrite K0, K2. auto.
    - destruct (params_keep _ _ HC) as (K0 & _ & K2). unfold ensemble_at in *. rewrite K0, K2. auto.
  Qed.
End Cfg.
