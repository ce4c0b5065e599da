(** * Consensus states and agreed coordinates never change under multiplicative noise *)
From Coq Require Import String List Arith Bool Reals Permutation Lia Lra.
From Verif Require Import Scalar Np NpFacts State Pdyn PdynFacts PdynStep PdynRun PdynOk Exec RunFacts MoveFacts RVec RVecFacts
  Consensus ConsSpec ConsFacts PostProc PostFacts Cbo CboSpec CboFacts.
Import ListNotations.
Open Scope R_scope.

Lemma map_repeat : forall A B (g : A -> B) a n, map g (repeat a n) = repeat (g a) n.
Proof. induction n; cbn; auto. rewrite IHn. auto. Qed.
Lemma vsub_self : forall p, vsub p p = vscal 0 p.
Proof. intros. unfold vsub, vscal. rewrite map2_same. apply map_ext. intros; ring. Qed.
Lemma coord_vsub_self : forall i p, coord i (vsub p p) = 0.
Proof. intros. rewrite coord_vsub by auto. ring. Qed.
Lemma vnorm_vsub_self : forall p, vnorm (vsub p p) = 0.
Proof. intros. rewrite vsub_self, vnorm_scal, Rabs_R0. ring. Qed.

Lemma coord_rnoise_aniso : forall i dt u z, length u = length z -> coord i (rnoise NAniso dt u z) = sqrt dt * (coord i z * coord i u).
Proof. intros. unfold rnoise. rewrite coord_vscal, coord_mul by auto. auto. Qed.
Lemma coord_rnoise_iso : forall i dt u z, coord i (rnoise NIso dt u z) = sqrt dt * (vnorm u * coord i z).
Proof. intros. unfold rnoise. rewrite !coord_vscal. auto. Qed.

Lemma rmove_same : forall k la dt sg p z, k <> NConst -> length z = length p -> rmove k la dt sg p p z = p.
Proof.
  intros k la dt sg p z Hk Hz. apply (coord_ext _ _ (length p)); auto; [apply length_rmove; auto|].
  intros i _. rewrite (coord_rmove _ _ _ _ _ _ _ _ (length p)) by auto.
  destruct k; [congruence| |].
  - rewrite coord_rnoise_iso, vnorm_vsub_self. ring.
  - rewrite coord_rnoise_aniso, coord_vsub_self by (rewrite (length_vsub p p (length p)); auto). ring.
Qed.

Lemma gibbs_point_coord : forall a E d X j v, admissible a E -> ensemble (length E) d X -> (j < d)%nat ->
  (forall p, In p X -> coord j p = v) -> coord j (gibbs_point a E d X) = v.
Proof.
  intros a E d X j v HA HX Hj H. assert (v <= coord j (gibbs_point a E d X) <= v); [|lra].
  apply hull_coord; auto. intros p Hp. rewrite (H p Hp). lra.
Qed.

Lemma pp_point_fixes : forall t p d, 0 <= t <= float_max -> length p = d -> in_box d (fun _ => - t) (fun _ => t) p -> pp_point t false (floats p) = floats p.
Proof.
  intros t p d Ht HL HB. unfold pp_point, floats. rewrite map_map. apply map_ext_in. intros x Hx.
  apply In_nth with (d := 0) in Hx. destruct Hx as (i & Hi & <-). apply pp_default_in_range; auto. apply HB. lia.
Qed.
Lemma pp_point_coord : forall t p d j, 0 <= t <= float_max -> length p = d -> (j < d)%nat -> - t <= coord j p <= t ->
  exists q, pp_point t false (floats p) = floats q /\ length q = d /\ coord j q = coord j p.
Proof.
  intros t p d j Ht HL Hj HB. exists (map (fun x => Rmax (- t) (Rmin t x)) p). split; [|split].
  - unfold pp_point, floats. rewrite !map_map. apply map_ext. intros x. unfold pp_default, nan_to_num. apply np_clip_fin. lra.
  - rewrite map_length. auto.
  - unfold coord in *. rewrite (nth_indep _ 0 (Rmax (- t) (Rmin t 0))) by (rewrite map_length; lia). rewrite (map_nth (fun x => Rmax (- t) (Rmin t x))).
    rewrite Rmin_right, Rmax_right; lra.
Qed.

Section Absorb.
  Variables (f : vec -> fl R) (k : noise_model) (pp : vec -> vec) (b : nat) (partial cat : bool) (ks : list (crit R vec)) (save : bool).
  Let c := cbo_cfg f k pp NoCorr b partial cat ks save.

  Lemma params_keep : forall s s' : st R vec, params_changed s s' -> s_x s' = s_x s /\ s_M s' = s_M s /\ s_N s' = s_N s.
  Proof. intros s s' (al & sg & la & dd & _ & ->). destruct s; auto. Qed.
  Lemma reset_keeps : forall s : st R vec, s_x (reset s) = s_x s /\ s_M (reset s) = s_M s /\ s_N (reset s) = s_N s /\
    s_alpha (reset s) = s_alpha s /\ s_sigma (reset s) = s_sigma s /\ s_lamda (reset s) = s_lamda s /\ s_dt (reset s) = s_dt s.
  Proof. intros s. destruct (reset_char s) as (ts & h & -> & _). destruct s; cbn; auto 10. Qed.

  Lemma later_keep : forall s log d s', exec c s log -> finite_alpha s -> finite_parameters s -> later c d s s' ->
    (exists log', exec c s' log') /\ finite_alpha s' /\ finite_parameters s' /\ s_N s' = s_N s.
  Proof.
    intros s log d s' E HA HP H. induction H as [|s1 o s2 H IH P HD HS|s1 b' s2 H IH HT|s1 s2 H IH HC A2 P2|s1 H IH].
    - eauto.
    - destruct IH as ((l & E1) & A1 & (la & dt & sg & P1) & N1). destruct (step_keeps _ _ _ _ _ _ _ _ s1 l o s2 E1 P HS) as (K1 & K2 & K3 & K4 & K5 & K6 & K7).
      split; [eexists; eapply ex_step; eauto|]. split; [intros i Hi; rewrite K3; apply A1; congruence|].
      split; [exists la, dt, sg; unfold parameters in *; rewrite K4, K5, K6; auto|congruence].
    - destruct IH as ((l & E1) & A1 & (la & dt & sg & P1) & N1). destruct (term_keeps _ _ _ _ _ _ _ _ s1 b' s2 HT) as (K0 & K1 & K2 & K3 & K4 & K5 & K6).
      split; [eexists; eapply ex_term; eauto|]. split; [intros i Hi; rewrite K3; apply A1; congruence|].
      split; [exists la, dt, sg; unfold parameters in *; rewrite K4, K5, K6; auto|congruence].
    - destruct IH as ((l & E1) & _ & _ & N1). split; [eexists; eapply ex_params; eauto|]. destruct (params_keep _ _ HC) as (_ & _ & K2).
      split; auto. split; auto. congruence.
    - destruct IH as ((l & E1) & A1 & (la & dt & sg & P1) & N1). destruct (reset_keeps s1) as (K0 & K1 & K2 & K3 & K4 & K5 & K6).
      split; [eexists; eapply ex_reset; eauto|]. split; [intros i Hi; rewrite K3; apply A1; congruence|].
      split; [exists la, dt, sg; unfold parameters in *; rewrite K4, K5, K6; auto|congruence].
  Qed.


  Lemma absorb_step : forall s log o s' m p, exec c s log -> perms_valid o s -> finite_draws (length p) o -> finite_alpha s -> finite_parameters s ->
    k <> NConst -> (exists y, f (floats p) = Fin y) -> pp (floats p) = floats p -> step c o s = Ok s' ->
    all_at s m p -> all_at s' m p.
  Proof.
    intros s log o s' m p E P HD HA (la & dt & sg & HP) Hk (y & Hf) Hpp HS Hx. unfold all_at in *.
    pose proof (exec_wf _ _ _ E) as W. destruct (step_keeps _ _ _ _ _ _ _ _ s log o s' E P HS) as (K1 & K2 & _). rewrite K2.
    assert (Hlt : (m < s_M s)%nat). { rewrite <- (proj1 (w_x _ _ W)). eapply nth_error_lt; eauto. }
    destruct (in_dec Nat.eq_dec m (s_active s)) as [Hm|Hm].
    - destruct (In_nth_error _ _ Hm) as (kk & Hkk). destruct (HA m Hlt) as (a & Ha).
      destruct (step_positions c s log o s' kk m _ (Fin a) E P (cbo_one_point _ _ _ _ _ _ _ _) eq_refl HS Hkk Hx Ha)
        as (xb & cp & xr' & HB & HN & HI & HC & Hx' & HL & HU & _).
      assert (Exb : xb = map floats (repeat p (length xb))).
      { clear - HI. induction xb as [|v xb IH]; auto. cbn. f_equal.
        - assert (In v (repeat (floats p) (s_N s))) by (apply HI; cbn; auto). eapply repeat_spec; eauto.
        - apply IH. intros v' Hv'. apply HI. cbn. auto. }
      assert (cp = floats p).
      { cbn [c cbo_cfg c_ccrow c_f] in HC. rewrite Exb in HC.
        assert (HE : map f (map floats (repeat p (length xb))) = repeat (Fin y) (length xb)).
        { rewrite map_map, map_repeat, Hf. auto. }
        assert (AD : admissible a (repeat (Fin y) (length xb))).
        { split.
          - intros e He. apply repeat_spec in He. left. eauto.
          - exists y. destruct xb; [congruence|]. cbn. auto. }
        rewrite HE, (consensus_gibbs a _ (length p)) in HC; auto.
        2:{ split; [rewrite !repeat_length; auto|]. intros q Hq. apply repeat_spec in Hq. subst; auto. }
        injection HC as <-. f_equal. apply hull_single; auto.
        - split; [rewrite !repeat_length; auto|]. intros q Hq. apply repeat_spec in Hq. subst; auto.
        - intros q Hq. apply repeat_spec in Hq. auto. }
      subst cp. rewrite Hx'. f_equal. apply nth_error_ext. intros n. destruct (Nat.lt_ge_cases n (s_N s)) as [Hn|Hn].
      + assert (Hv : nth_error (repeat (floats p) (s_N s)) n = Some (floats p)).
        { rewrite nth_error_repeat. rewrite (proj2 (Nat.ltb_lt _ _) Hn). auto. }
        transitivity (Some (floats p)); [|symmetry; exact Hv]. destruct (HU n (floats p) Hv) as (v' & -> & [->|(i & ->)]).
        * cbn [c cbo_cfg c_pp]. rewrite Hpp. auto.
        * destruct (HD kk i) as (z & -> & Lz). cbn [c cbo_cfg c_pp].
          rewrite (moved_floats f k pp b partial cat ks save s la dt sg) by auto. rewrite rmove_same by auto. rewrite Hpp. auto.
      + rewrite repeat_length in HL. rewrite (proj2 (nth_error_None _ _)) by lia. rewrite (proj2 (nth_error_None _ _)) by (rewrite repeat_length; lia). auto.
    - rewrite (step_positions_inactive c s log o s' m _ E P (cbo_plain _ _ _ _ _ _ _ _ _) HS Hm Hx). cbn [c cbo_cfg c_pp].
      rewrite map_repeat, Hpp. auto.
  Qed.

  Theorem absorbing : forall s log m p s', exec c s log -> finite_alpha s -> finite_parameters s -> k <> NConst ->
    (exists y, f (floats p) = Fin y) -> pp (floats p) = floats p -> all_at s m p -> later c (length p) s s' -> all_at s' m p.
  Proof.
    intros s log m p s' E HA HP Hk Hf Hpp Hx H. induction H as [|s1 o s2 H IH P HD HS|s1 b' s2 H IH HT|s1 s2 H IH HC A2 P2|s1 H IH]; auto.
    - destruct (later_keep s log (length p) s1 E HA HP H) as ((l & E1) & A1 & P1 & N1). eapply absorb_step; eauto.
    - destruct (term_keeps _ _ _ _ _ _ _ _ s1 b' s2 HT) as (K0 & K1 & K2 & _). unfold all_at in *. rewrite K0, K2. auto.
    - destruct (params_keep _ _ HC) as (K0 & _ & K2). unfold all_at in *. rewrite K0, K2. auto.
  Qed.

  Lemma choose_points : forall (P : list R -> Prop) (l : list vec), (forall v, In v l -> exists q, v = floats q /\ P q) ->
    exists X, l = map floats X /\ forall q, In q X -> P q.
  Proof.
    intros P l. induction l as [|v l IH]; intros H.
    - exists []. split; auto. intros q [].
    - destruct (H v) as (q & -> & Hq); [cbn; auto|]. destruct IH as (X & -> & HX); [intros; apply H; cbn; auto|].
      exists (q :: X). split; auto. intros q' [<-|H']; auto.
  Qed.

  Lemma agreed_step : forall s log o s' m d j v, exec c s log -> perms_valid o s -> finite_draws d o -> finite_alpha s -> finite_parameters s ->
    k = NAniso -> finite_obj d f -> (j < d)%nat ->
    (forall p, length p = d -> coord j p = v -> exists q, pp (floats p) = floats q /\ length q = d /\ coord j q = v) -> step c o s = Ok s' ->
    agreed s m d j v -> agreed s' m d j v.
  Proof.
    intros s log o s' m d j v E P HD HA (la & dt & sg & HP) Hk HF Hj Hpp HS (X & [HX1 HX2] & HXv).
    pose proof (exec_wf _ _ _ E) as W. destruct (step_keeps _ _ _ _ _ _ _ _ s log o s' E P HS) as (K1 & K2 & _).
    assert (Hlt : (m < s_M s)%nat). { rewrite <- (proj1 (w_x _ _ W)). eapply nth_error_lt; eauto. }
    assert (Q : exists xr', nth_error (s_x s') m = Some xr' /\ length xr' = length X /\ forall u, In u xr' -> exists q, u = floats q /\ (length q = d /\ coord j q = v)).
    { destruct (in_dec Nat.eq_dec m (s_active s)) as [Hm|Hm].
      - destruct (In_nth_error _ _ Hm) as (kk & Hkk). destruct (HA m Hlt) as (a & Ha).
        destruct (step_positions c s log o s' kk m _ (Fin a) E P (cbo_one_point _ _ _ _ _ _ _ _) eq_refl HS Hkk HX1 Ha)
          as (xb & cp & xr' & HB & HN & HI & HC & Hx' & HL & HU & _).
        destruct (choose_points (fun q => In q X) xb) as (Xb & -> & HXb).
        { intros u Hu. apply HI in Hu. apply in_map_iff in Hu. destruct Hu as (q & <- & Hq). eauto. }
        assert (HL2 : (1 <= length Xb)%nat) by (destruct Xb; [exfalso; apply HN; reflexivity|cbn; lia]).
        assert (Hd : forall q, In q Xb -> length q = d) by (intros q Hq; apply HX2; auto).
        rewrite (ccrow_finite f k pp b partial cat ks save d) in HC by auto. injection HC as <-.
        set (cp := gibbs_point a (map f (map floats Xb)) d Xb) in *.
        assert (Lc : length cp = d) by apply gibbs_point_length.
        assert (Vc : coord j cp = v).
        { apply gibbs_point_coord; auto; [eapply finite_admissible; eauto|split; auto; rewrite !map_length; auto]. }
        exists xr'. split; auto. split; [rewrite HL, map_length; auto|]. intros u Hu. apply In_nth_error in Hu. destruct Hu as (n & Hn).
        destruct (nth_error X n) as [x|] eqn:En.
        2:{ apply nth_error_None in En. apply nth_error_lt in Hn. rewrite HL, map_length in Hn. lia. }
        assert (Hx : nth_error (map floats X) n = Some (floats x)) by (rewrite nth_error_map, En; auto).
        destruct (HU n (floats x) Hx) as (v' & Hv' & Hor). rewrite Hn in Hv'. injection Hv' as ->.
        apply nth_error_In in En. assert (Lx : length x = d) by (apply HX2; auto). assert (Vx : coord j x = v) by auto.
        destruct Hor as [->|(i & ->)].
        + cbn [c cbo_cfg c_pp]. destruct (Hpp x Lx Vx) as (q & -> & H1 & H2). eauto.
        + destruct (HD kk i) as (z & -> & Lz). rewrite (moved_floats f k pp b partial cat ks save s la dt sg) by auto. cbn [c cbo_cfg c_pp].
          destruct (Hpp (rmove k la dt sg cp x z)) as (q & -> & H1 & H2).
          * apply length_rmove; auto.
          * rewrite (coord_rmove _ _ _ _ _ _ _ _ d) by auto. rewrite Hk, coord_rnoise_aniso by (rewrite (length_vsub x cp d); auto).
            rewrite coord_vsub by congruence. rewrite Vx, Vc. ring.
          * eauto.
      - exists (map pp (map floats X)). split; [exact (step_positions_inactive c s log o s' m _ E P (cbo_plain _ _ _ _ _ _ _ _ _) HS Hm HX1)|].
        split; [rewrite !map_length; auto|]. intros u Hu. rewrite map_map in Hu. apply in_map_iff in Hu. destruct Hu as (x & <- & Hx).
        destruct (Hpp x) as (q & -> & H1 & H2); auto; [apply HX2; auto|]. eauto. }
    destruct Q as (xr' & Q1 & Q2 & Q3). destruct (choose_points _ xr' Q3) as (Y & -> & HY). exists Y. split.
    - split; auto. split; [rewrite map_length in Q2; rewrite K2, Q2; apply HX2|]. intros q Hq. apply HY; auto.
    - intros q Hq. apply HY; auto.
  Qed.

  Theorem agreed_forever : forall s log m d j v s', exec c s log -> finite_alpha s -> finite_parameters s -> k = NAniso -> finite_obj d f -> (j < d)%nat ->
    (forall p, length p = d -> coord j p = v -> exists q, pp (floats p) = floats q /\ length q = d /\ coord j q = v) ->
    agreed s m d j v -> later c d s s' -> agreed s' m d j v.
  Proof.
    intros s log m d j v s' E HA HP Hk HF Hj Hpp Hx H. induction H as [|s1 o s2 H IH P HD HS|s1 b' s2 H IH HT|s1 s2 H IH HC A2 P2|s1 H IH]; auto.
    - destruct (later_keep s log d s1 E HA HP H) as ((l & E1) & A1 & P1 & N1). eapply agreed_step; eauto.
    - destruct (term_keeps _ _ _ _ _ _ _ _ s1 b' s2 HT) as (K0 & K1 & K2 & _). unfold agreed, ensemble_at in *. rewrite K0, K2. auto.
    - destruct (params_keep _ _ HC) as (K0 & _ & K2). unfold agreed, ensemble_at in *. rewrite K0, K2. auto.
  Qed.
End Absorb.

(** constant noise moves coinciding particles *)
Section Const.
  Variables (f : vec -> fl R) (b : nat) (partial cat : bool) (ks : list (crit R vec)) (save : bool).
  Let c := cbo_cfg f NConst (fun v => v) NoCorr b partial cat ks save.

  Theorem constant_noise_moves : forall s log o s' m d p la dt sg kk n z, exec c s log -> perms_valid o s -> finite_draws d o -> finite_obj d f ->
    finite_alpha s -> parameters la dt sg s -> b = s_N s -> step c o s = Ok s' -> nth_error (s_active s) kk = Some m -> length p = d ->
    all_at s m p -> (n < s_N s)%nat -> o_z o kk n = floats z -> length z = d ->
    exists xr', nth_error (s_x s') m = Some xr' /\ nth_error xr' n = Some (floats (vadd p (vscal (sg * sqrt dt) z))).
  Proof.
    intros s log o s' m d p la dt sg kk n z E P HD HF HA HP HB HS Hk Lp Hx Hn Hz Lz.
    pose proof (exec_wf _ _ _ E) as W. assert (Hlt : (m < s_M s)%nat) by (apply W; eapply nth_error_In; eauto).
    destruct (HA m Hlt) as (a & Ha).
    destruct (step_positions c s log o s' kk m _ (Fin a) E P (cbo_one_point _ _ _ _ _ _ _ _) eq_refl HS Hk Hx Ha)
      as (xb & cp & xr' & _ & _ & _ & HC & Hx' & _ & _ & HU).
    destruct (HU HB) as [-> ->]. clear HU. eexists. split; [exact Hx'|].
    assert (EX : repeat (floats p) (s_N s) = map floats (repeat p (s_N s))) by (rewrite map_repeat; auto).
    assert (HN : (1 <= length (repeat p (s_N s)))%nat) by (rewrite repeat_length; apply W).
    assert (HL : forall q, In q (repeat p (s_N s)) -> length q = d) by (intros q Hq; apply repeat_spec in Hq; congruence).
    assert (EC : c_ccrow c (map (c_f c) (map floats (repeat p (s_N s)))) (map floats (repeat p (s_N s))) (Fin a) = [cp]) by (rewrite <- EX; exact HC).
    unfold c in EC. rewrite (ccrow_finite f NConst (fun v => v) b partial cat ks save d _ a HF HN HL) in EC. injection EC as <-.
    rewrite (hull_single a _ d (repeat p (s_N s)) p).
    2:{ eapply finite_admissible; eauto. } 2:{ split; [rewrite !map_length; auto|exact HL]. } 2:{ exact Lp. } 2:{ intros q Hq. apply repeat_spec in Hq. auto. }
    rewrite mapi_nth, nth_error_repeat, (proj2 (Nat.ltb_lt _ _) Hn). cbn [option_map]. cbn [c cbo_cfg c_pp]. rewrite Hz.
    rewrite (moved_floats f NConst (fun v => v) b partial cat ks save s la dt sg) by auto. do 2 f_equal.
    apply (coord_ext _ _ d); [apply length_rmove; auto|apply length_vadd; auto; rewrite length_vscal; auto|].
    intros i Hi. rewrite (coord_rmove _ _ _ _ _ _ _ _ d) by auto. unfold rnoise. rewrite coord_vadd by (rewrite length_vscal; congruence).
    rewrite !coord_vscal. ring.
  Qed.
End Const.
