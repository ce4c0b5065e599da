(** * Noise-free runs converge *)
From Coq Require Import List Arith Bool Reals Lia Lra.
From Verif Require Import Scalar Np NpFacts State Pdyn PdynRun PdynOk Exec RunFacts RVec RVecFacts Consensus ConsSpec ConsFacts PostProc Cbo CboSpec CboFacts MoveFacts AbsorbFacts
  MomentSpec MsSpec LimSpec.
Import ListNotations.
Open Scope R_scope.

(** least and greatest entry of a list *)
Definition lmin (l : list R) : R := match l with [] => 0 | a :: t => fold_right Rmin a t end.
Definition lmax (l : list R) : R := match l with [] => 0 | a :: t => fold_right Rmax a t end.
Lemma lmin_spec : forall l, l <> [] -> In (lmin l) l /\ forall x, In x l -> lmin l <= x.
Proof.
  intros [|a t] H; [congruence|]. clear H. cbn [lmin]. induction t as [|b t (I1 & I2)]. cbn. split; auto. intros x [<-|[]]; lra.
  cbn [fold_right]. split.
  - unfold Rmin. destruct (Rle_dec _ _); [cbn; auto|]. destruct I1; cbn; auto.
  - intros x [<-|[<-|H]]. eapply Rle_trans; [apply Rmin_r|apply I2; cbn; auto]. apply Rmin_l. eapply Rle_trans; [apply Rmin_r|apply I2; cbn; auto].
Qed.
Lemma lmax_spec : forall l, l <> [] -> In (lmax l) l /\ forall x, In x l -> x <= lmax l.
Proof.
  intros [|a t] H; [congruence|]. clear H. cbn [lmax]. induction t as [|b t (I1 & I2)]. cbn. split; auto. intros x [<-|[]]; lra.
  cbn [fold_right]. split.
  - unfold Rmax. destruct (Rle_dec _ _); [|cbn; auto]. destruct I1; cbn; auto.
  - intros x [<-|[<-|H]]. eapply Rle_trans; [apply I2; cbn; auto|apply Rmax_r]. apply Rmax_l. eapply Rle_trans; [apply I2; cbn; auto|apply Rmax_r].
Qed.

(** coordinate l of particle i of run m *)
Definition pick (s : st R vec) (m i l : nat) : R := match nth l (nth i (nth m (s_x s) []) []) NaN with Fin x => x | _ => 0 end.
Lemma pick_at : forall s m d X i l, ensemble_at s m d X -> (i < s_N s)%nat -> (l < d)%nat -> pick s m i l = coord l (nth i X []).
Proof.
  intros s m d X i l (H & HX) Hi Hl. unfold pick. rewrite (nth_error_nth _ _ [] H). 
  assert (L : length (nth i X []) = d) by (apply HX; apply nth_In; rewrite (proj1 HX); auto).
  rewrite (nth_map _ _ floats _ _ []) by (rewrite (proj1 HX); auto). unfold floats. rewrite (nth_map _ _ Fin _ _ 0) by lia. reflexivity.
Qed.

(** a sequence that stays within w r^n of each of its points has a limit *)
Lemma geometric_cauchy : forall u w r, 0 <= w -> 0 <= r < 1 -> (forall n k, Rabs (u (n + k)%nat - u n) <= w * r ^ n) -> Cauchy_crit u.
Proof.
  intros u w r Hw Hr H eps He. 
  destruct (pow_lt_1_zero r) with (y := eps / (2 * (w + 1))) as (N & HN). { rewrite Rabs_right; lra. } { apply Rdiv_lt_0_compat; lra. }
  assert (HB : forall n, (n >= N)%nat -> w * r ^ n < eps / 2).
  { intros n Hn. specialize (HN n Hn). pose proof (pow_le r n ltac:(lra)) as P0. rewrite Rabs_right in HN by lra.
    apply (Rle_lt_trans _ ((w + 1) * r ^ n)). nra. apply (Rmult_lt_compat_l (w + 1)) in HN; [|lra]. replace ((w + 1) * (eps / (2 * (w + 1)))) with (eps / 2) in HN by (field; lra). exact HN. }
  exists N. intros n m Hn Hm. unfold R_dist.
  assert (K : forall q, (q >= N)%nat -> Rabs (u q - u N) < eps / 2). { intros q Hq. replace q with (N + (q - N))%nat by lia. eapply Rle_lt_trans; [apply H|apply HB; lia]. }
  replace (u n - u m) with ((u n - u N) - (u m - u N)) by ring. pose proof (K n Hn). pose proof (K m Hm).
  unfold Rminus at 1. eapply Rle_lt_trans; [apply Rabs_triang|]. rewrite Rabs_Ropp. lra.
Qed.
Lemma limit_bound : forall u L n B, Un_cv u L -> (forall k, Rabs (u (n + k)%nat - u n) <= B) -> Rabs (u n - L) <= B.
Proof.
  intros u L n B HL H. apply Rnot_lt_le. intros HB. destruct (HL (Rabs (u n - L) - B)) as (N & HN). lra.
  specialize (HN (n + N)%nat ltac:(lia)). unfold R_dist in HN. specialize (H N).
  replace (u n - L) with ((u (n + N)%nat - L) - (u (n + N)%nat - u n)) in * by ring.
  assert (T : Rabs ((u (n + N)%nat - L) - (u (n + N)%nat - u n)) <= Rabs (u (n + N)%nat - L) + Rabs (u (n + N)%nat - u n)).
  { unfold Rminus at 1. eapply Rle_trans; [apply Rabs_triang|]. rewrite Rabs_Ropp. lra. } lra.
Qed.
Lemma limit_range : forall u L a b, Un_cv u L -> (forall n, a <= u n <= b) -> a <= L <= b.
Proof.
  intros u L a b HL H. split; apply Rnot_lt_le; intros HB.
  - destruct (HL (a - L)) as (N & HN). lra. specialize (HN N ltac:(lia)). unfold R_dist, Rabs in HN. specialize (H N). destruct (Rcase_abs _); lra.
  - destruct (HL (L - b)) as (N & HN). lra. specialize (HN N ltac:(lia)). unfold R_dist, Rabs in HN. specialize (H N). destruct (Rcase_abs _); lra.
Qed.

Section Limit.
  Variables (f : vec -> fl R) (k : noise_model) (pp : vec -> vec) (b : nat) (partial cat : bool) (ks : list (crit R vec)) (save : bool).
  Let c := cbo_cfg f k pp NoCorr b partial cat ks save.

  Lemma endless_steps : forall m d run, endless c m d run -> forall n j, steps_active c m d (run n) j (run (n + j)%nat).
  Proof.
    intros m d run H n j. induction j as [|j IH]. rewrite Nat.add_0_r. constructor.
    destruct (H (n + j)%nat) as (s1 & o & Hb & Hm & P & HD & HS). replace (n + S j)%nat with (S (n + j)) by lia.
    apply (sa_step c m d (run n) j s1 o); auto. clear Hm P HD HS. destruct Hb as [|b0 s' HT|s' HC|b0 s0 s' HT HC]; auto.
    eapply sa_term; eauto. eapply sa_alpha; eauto. apply (sa_alpha c m d (run n) j s0); auto. eapply sa_term; eauto.
  Qed.

  Theorem noise_free_limit : forall run log m d X la dt lo hi, exec c (run 0%nat) log -> finite_obj d f -> finite_alpha (run 0%nat) ->
    parameters la dt 0 (run 0%nat) -> b = s_N (run 0%nat) -> ensemble_at (run 0%nat) m d X -> 0 < la * dt <= 1 ->
    (forall p, length p = d -> in_box d lo hi p -> pp (floats p) = floats p) -> (forall p, In p X -> in_box d lo hi p) -> endless c m d run ->
    exists p, length p = d /\ in_box d lo hi p /\ forall n, exists Y, ensemble_at (run n) m d Y /\
      forall y l, In y Y -> (l < d)%nat -> Rabs (coord l y - coord l p) <= (1 - la * dt) ^ n * (hi l - lo l).
  Proof.
    intros run log m d X la dt lo hi E HF HA HP HB HX Hl Hpp HBox HR. set (r := 1 - la * dt). assert (Hr : 0 <= r < 1) by (unfold r; lra).
    assert (HN : (1 <= s_N (run 0%nat))%nat) by (apply (exec_wf _ _ _ E)).
    assert (HE : forall n, exists Y, ensemble_at (run n) m d Y /\ (forall p, In p Y -> in_box d lo hi p) /\ diffs (r ^ n) X Y /\
      s_N (run n) = s_N (run 0%nat) /\ (exists l, exec c (run n) l) /\ finite_alpha (run n) /\ parameters la dt 0 (run n)).
    { intros n. pose proof (endless_steps m d run HR 0 n) as HS. cbn [plus] in HS.
      destruct (noise_free_box f k pp b partial cat ks save (run 0%nat) log m d n (run n) X la dt lo hi) as (Y & A1 & A2 & A3); auto. lra.
      destruct (steps_keep f k pp b partial cat ks save (run 0%nat) log m d n (run n) la dt 0 E HA HP HS) as (B1 & B2 & B3 & B4 & B5).
      exists Y. auto 10. }
    assert (HXN : length X = s_N (run 0%nat)) by apply HX.
    (* all later points are within r^n (hi - lo) of all points of run n *)
    assert (HC : forall n j Y Z y z l, ensemble_at (run n) m d Y -> ensemble_at (run (n + j)%nat) m d Z -> In y Y -> In z Z -> (l < d)%nat -> Rabs (coord l z - coord l y) <= r ^ n * (hi l - lo l)).
    { intros n j Y Z y z l HY HZ Hy Hz Hld. destruct (HE n) as (Y' & A1 & A2 & A3 & A4 & (l1 & A5) & A6 & A7).
      assert (UN : forall s U V, ensemble_at s m d U -> ensemble_at s m d V -> U = V).
      { intros s U V (U1 & _) (V1 & _). rewrite U1 in V1. injection V1 as V1. clear - V1. revert V V1. induction U as [|u U IH]; intros [|v V] H; try discriminate; auto.
        cbn in H. injection H as H1 H2. f_equal; auto. clear - H1. revert v H1. induction u as [|a u IH]; intros [|e v] H; try discriminate; auto. cbn in H. injection H as H1 H2. f_equal; auto. }
      assert (Y' = Y) by (eapply UN; eauto). subst Y'.
      assert (NE : forall l, map (coord l) Y <> []). { intros l0 H0. apply map_eq_nil in H0. subst. destruct Hy. }
      set (lo' := fun l => lmin (map (coord l) Y)). set (hi' := fun l => lmax (map (coord l) Y)).
      assert (IB : forall p, In p Y -> in_box d lo' hi' p).
      { intros p Hp i Hi. split; [apply lmin_spec|apply lmax_spec]; auto; apply in_map; auto. }
      assert (SUB : forall p, in_box d lo' hi' p -> in_box d lo hi p).
      { intros p Hp i Hi. specialize (Hp i Hi). destruct (lmin_spec _ (NE i)) as (M1 & _). destruct (lmax_spec _ (NE i)) as (M2 & _). fold (lo' i) in M1. fold (hi' i) in M2.
        apply in_map_iff in M1. destruct M1 as (p1 & E1 & I1). apply in_map_iff in M2. destruct M2 as (p2 & E2 & I2).
        pose proof (A2 p1 I1 i Hi). pose proof (A2 p2 I2 i Hi). lra. }
      destruct (noise_free_box f k pp b partial cat ks save (run n) l1 m d j (run (n + j)%nat) Y la dt lo' hi') as (Z' & C1 & C2 & _); auto.
      { congruence. } { lra. } { apply endless_steps; auto. }
      assert (Z' = Z) by (eapply UN; eauto). subst Z'.
      assert (WD : hi' l - lo' l <= r ^ n * (hi l - lo l)).
      { destruct (lmin_spec _ (NE l)) as (M1 & _). destruct (lmax_spec _ (NE l)) as (M2 & _). fold (lo' l) in M1. fold (hi' l) in M2.
        apply in_map_iff in M1. destruct M1 as (p1 & E1 & I1). apply in_map_iff in M2. destruct M2 as (p2 & E2 & I2).
        apply In_nth_error in I1. destruct I1 as (i1 & I1). apply In_nth_error in I2. destruct I2 as (i2 & I2).
        assert (LY : length Y = length X). { destruct HY as (_ & HY & _). congruence. }
        destruct (nth_error_lt_Some _ X i1) as (x1 & X1). { apply nth_error_lt in I1. lia. } destruct (nth_error_lt_Some _ X i2) as (x2 & X2). { apply nth_error_lt in I2. lia. }
        pose proof (A3 i2 i1 x2 x1 p2 p1 X2 X1 I2 I1) as D. apply (f_equal (coord l)) in D.
        assert (LL : forall S q W, ensemble_at S m d W -> In q W -> length q = d) by (intros S q W HW Hq; apply HW; auto).
        assert (L1 : length p1 = d) by (eapply LL; [exact HY|eapply nth_error_In; eauto]). assert (L2 : length p2 = d) by (eapply LL; [exact HY|eapply nth_error_In; eauto]).
        assert (L3 : length x1 = d) by (eapply LL; [exact HX|eapply nth_error_In; eauto]). assert (L4 : length x2 = d) by (eapply LL; [exact HX|eapply nth_error_In; eauto]).
        rewrite coord_vscal, !coord_vsub in D by congruence. rewrite E1, E2 in D. rewrite D.
        pose proof (HBox x1 (nth_error_In _ _ X1) l Hld). pose proof (HBox x2 (nth_error_In _ _ X2) l Hld).
        apply Rmult_le_compat_l; [apply pow_le; lra|lra]. }
      pose proof (C2 z Hz l Hld). pose proof (IB y Hy l Hld). unfold Rabs. destruct (Rcase_abs _); lra. }
    set (u := fun l n => pick (run n) m 0 l).
    assert (HU : forall l n, (l < d)%nat -> exists Y y, ensemble_at (run n) m d Y /\ In y Y /\ u l n = coord l y).
    { intros l n Hld. destruct (HE n) as (Y & A1 & _ & _ & A4 & _). exists Y, (nth 0 Y []). split; auto. split.
      - apply nth_In. rewrite (proj1 (proj2 A1)). lia.
      - apply (pick_at _ _ d); auto. lia. }
    assert (HUC : forall l n j, (l < d)%nat -> Rabs (u l (n + j)%nat - u l n) <= (hi l - lo l) * r ^ n).
    { intros l n j Hld. destruct (HU l n Hld) as (Y & y & H1 & H2 & ->). destruct (HU l (n + j)%nat Hld) as (Z & z & H3 & H4 & ->). rewrite Rmult_comm. eapply HC; eauto. }
    assert (HW : forall l, (l < d)%nat -> 0 <= hi l - lo l).
    { intros l Hld. destruct (HE 0%nat) as (Y & A1 & A2 & _). destruct (HU l 0%nat Hld) as (Z & z & H1 & H2 & _). 
      destruct X as [|x X']; [cbn in HXN; lia|]. pose proof (HBox x (or_introl eq_refl) l Hld). lra. }
    assert (LIM : forall l, {L | (l < d)%nat -> Un_cv (u l) L}).
    { intros l. destruct (lt_dec l d) as [Hld|Hld]; [|exists 0; intros; lia].
      destruct (R_complete (u l)) as (L & HL). { apply (geometric_cauchy _ (hi l - lo l) r); auto. } exists L. auto. }
    set (p := map (fun l => proj1_sig (LIM l)) (seq 0 d)).
    assert (Hp : forall l, (l < d)%nat -> Un_cv (u l) (coord l p)).
    { intros l Hld. unfold coord, p. rewrite nth_map_seq by auto. apply (proj2_sig (LIM l)). auto. }
    exists p. split; [unfold p; rewrite map_length, seq_length; auto|]. split.
    - intros l Hld. apply (limit_range (u l)); auto. intros n. destruct (HU l n Hld) as (Y & y & H1 & H2 & ->). destruct (HE n) as (Y' & A1 & A2 & _).
      destruct H1 as (H1 & H1'). destruct A1 as (A1 & A1'). rewrite H1 in A1. injection A1 as A1.
      assert (Hy : In (floats y) (map floats Y')) by (rewrite <- A1; apply in_map; auto). apply in_map_iff in Hy. destruct Hy as (y' & Ey & Iy).
      assert (y' = y). { clear - Ey. revert y Ey. induction y' as [|a u IH]; intros [|e v] H; try discriminate; auto. cbn in H. injection H as H1 H2. f_equal; auto. } subst. apply A2; auto.
    - intros n. destruct (HE n) as (Y & A1 & A2 & _). exists Y. split; auto. intros y l Hy Hld.
      (* the constant sequence extended by y in front *)
      apply Rnot_lt_le. intros HB'. destruct (Hp l Hld (Rabs (coord l y - coord l p) - r ^ n * (hi l - lo l))) as (N & HNN). lra.
      specialize (HNN (n + N)%nat ltac:(lia)). unfold R_dist in HNN. destruct (HU l (n + N)%nat Hld) as (Z & z & H1 & H2 & Hz). rewrite Hz in HNN.
      pose proof (HC n N Y Z y z l A1 H1 Hy H2 Hld) as Q.
      assert (T : Rabs (coord l y - coord l p) <= Rabs (coord l z - coord l p) + Rabs (coord l z - coord l y)).
      { replace (coord l y - coord l p) with ((coord l z - coord l p) + - (coord l z - coord l y)) by ring. eapply Rle_trans; [apply Rabs_triang|]. rewrite Rabs_Ropp. lra. }
      lra.
  Qed.
End Limit.
