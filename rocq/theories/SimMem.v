(** * Related sessions of CBOMemory and PSO *)
From Coq Require Import String List Arith Bool Permutation Lia.
From Verif Require Import Scalar Np NpFacts State Pdyn PdynFacts PdynStep PdynRun PdynOk Exec StepFrame Memory MemSpec MemFacts MemFacts2 MemFacts3 SimSpec SimNp SimFacts MemSymSpec.
Import ListNotations.
Open Scope nat_scope.
Open Scope list_scope.

Section Frame.
  Context {K V : Type} {O : KOps K}.
  Lemma post_energy : forall k (d : cfg K V) s s1, mem_post_step k d s = Ok s1 -> s_energy s1 = s_energy s /\ s_lamda s1 = s_lamda s /\ s_dt s1 = s_dt s /\ s_sigma s1 = s_sigma s.
  Proof.
    intros k d s s1 H. unfold mem_post_step in H. cbv zeta in H. fold (projected d s) in H.
    assert (P : s_energy (projected d s) = s_energy s /\ s_lamda (projected d s) = s_lamda s /\ s_dt (projected d s) = s_dt s /\ s_sigma (projected d s) = s_sigma s).
    { unfold projected. cbv zeta. sst. destruct (s_xold s); repeat split. }
    revert H P. generalize (projected d s). intros s0 H (P1 & P2 & P3 & P4). apply bind_ok in H. destruct H as (s3 & H3 & H). apply bind_ok in H. destruct H as (s5 & H5 & H). injection H as <-.
    destruct (track_frame _ _ _ H5) as (ti & ts & h & E5). rewrite E5. sst. unfold update_best. sst.
    assert (E3 : s_energy s3 = s_energy s0 /\ s_lamda s3 = s_lamda s0 /\ s_dt s3 = s_dt s0 /\ s_sigma s3 = s_sigma s0).
    { destruct k; unfold mem_update_best_cur, update_best_cur in H3; repeat (apply bind_ok in H3; destruct H3 as (? & _ & H3)); injection H3 as <-; repeat split. }
    destruct E3 as (-> & -> & -> & ->). auto.
  Qed.

  Definition keeps (s s1 : st K V) : Prop := s_lamda s1 = s_lamda s /\ s_dt s1 = s_dt s /\ s_sigma s1 = s_sigma s.
  Ltac unb H := repeat (apply bind_ok in H; destruct H as (? & ? & H)).
  Lemma keeps_step : forall k (d : cfg K V) p o z2 ms ms', mem_step k d p o z2 ms = Ok ms' -> keeps (m_s ms) (m_s ms').
  Proof.
    intros k d p o z2 ms ms' H. unfold mem_step in H. apply bind_ok in H. destruct H as (s1 & E1 & H). apply bind_ok in H. destruct H as (ms2 & E2 & H).
    apply bind_ok in H. destruct H as (s3 & E3 & H). injection H as <-. cbn [m_s].
    destruct (post_energy _ _ _ _ E3) as (_ & P1 & P2 & P3). destruct (pre_step_frame _ _ _ _ E1) as (ci & pi & ind & xo & ->).
    assert (Q : keeps (m_s ms) (m_s ms2)).
    { clear E3 P1 P2 P3. destruct k; unfold mem_inner, pso_inner, eval_f, memorize in E2; cbn [m_s m_y m_v] in E2; cbv zeta in E2.
      - apply bind_ok in E2. destruct E2 as (sa & Ea & E2). apply bind_ok in E2. destruct E2 as (sb & Eb & E2). unb E2. injection E2 as <-. cbn [m_s]. unfold keeps. sst.
        unfold memory_step in Eb. unb Eb. injection Eb as <-. sst. unfold mem_cbo_step in Ea. unb Ea. rename Ea into E.
        match type of E with (let '(_, _) := ?x in _) = _ => destruct x as [dd s2] eqn:Ex end. subst.
        match goal with H : correction _ _ _ _ = Ok _ |- _ => destruct (correction_frame _ _ _ _ _ _ H) as (G1 & G2 & G3) end.
        unb E. injection E as <-. sstall. auto.
      - unb E2. match type of E2 with (let '(_, _) := ?x in _) = _ => destruct x as [dd s2] eqn:Ex end. subst.
        match goal with H : correction _ _ _ _ = Ok _ |- _ => destruct (correction_frame _ _ _ _ _ _ H) as (G1 & G2 & G3) end.
        unb E2. injection E2 as <-. cbn [m_s]. unfold keeps. sstall. auto. }
    unfold keeps in *. destruct Q as (Q1 & Q2 & Q3). repeat split; congruence.
  Qed.
End Frame.

Section SimMem.
  Context {K V V' : Type} {O : KOps K}.
  Notation F := (fl K).
  Variables (RV RD RZ : V -> V' -> Prop) (RE RF RA RU : F -> F -> Prop) (Fs Ft : F -> Prop).
  Variables (c : cfg K V) (c' : cfg K V').
  Notation srel := (state_related RV RD RE RA RU).
  Hypothesis L : laws RV RD RZ RE RF RA RU Fs Ft c c'.
  Hypothesis Lmin : forall a a' b b', RF a a' -> RF b b' -> RF (fmin a b) (fmin a' b').
  Hypothesis Lzero : forall v v', RV v v' -> RD (c_vscale c (Fin k0) v) (c_vscale c' (Fin k0) v').

  Record mrel (ms : mst K V) (ms' : mst K V') : Prop := {
    mr_s : srel (m_s ms) (m_s ms');
    mr_e : entries RF (s_energy (m_s ms)) (s_energy (m_s ms'));
    mr_y : entries RV (m_y ms) (m_y ms');
    mr_v : entries RD (m_v ms) (m_v ms');
    mr_ev : entries RV (m_ev ms) (m_ev ms') }.
  Definition finite_mpar (k : mkind) (p : mpar K) (dt : F) : Prop :=
    Fs (p_lm p) /\ Fs (p_sm p) /\ (k = Pso -> Fs (p_m p) /\ Fs (fdiv (Fin k1) (fadd (p_m p) (fmul (p_gamma p) dt)))).

  Notation G f := (f _ _ _ _ _ _ _).

  Lemma mem_consensus_so : forall s s' y y', srel s s' -> entries RF (s_energy s) (s_energy s') -> entries RV y y' -> (forall r, In r (s_energy s) -> r <> []) ->
    same_outcome (entries RV) (mem_consensus c s y) (mem_consensus c' s' y').
  Proof.
    intros s s' y y' H He Hy Hne. unfold mem_consensus. rewrite (G rl_cidx H), (G rl_active H). eapply so_bind; [eapply gather_so; exact Hy|]. intros a b _ _ Hab.
    eapply so_bind; [eapply takeM_so; exact (G rl_alpha H)|]. intros al al' _ _ Ha. eapply cc_so; eauto.
  Qed.
  Lemma pso_consensus_so : forall s s' y y', srel s s' -> entries RF (s_energy s) (s_energy s') -> entries RV y y' -> live (s_cidx s) (s_energy s) ->
    same_outcome (entries RV) (pso_consensus c s y) (pso_consensus c' s' y').
  Proof.
    intros s s' y y' H He Hy Hne. unfold pso_consensus. rewrite (G rl_cidx H), (G rl_active H). eapply so_bind; [eapply gather_so; exact Hy|]. intros a b _ _ Hab.
    eapply so_bind; [eapply gather_so; exact He|]. intros e e' Ee _ Hee.
    eapply so_bind; [eapply takeM_so; exact (G rl_alpha H)|]. intros al al' _ _ Ha. eapply cc_so; eauto.
  Qed.

  Lemma memorize_so : forall b s s' y y' v v' xe xe' en en', srel s s' -> entries RF (s_energy s) (s_energy s') -> entries RV y y' -> entries RD v v' -> entries RV xe xe' -> entries RF en en' ->
    same_outcome mrel (memorize c b s y v xe en) (memorize c' b s' y' v' xe' en').
  Proof.
    intros b s s' y y' v v' xe xe' en en' H He Hy Hv Hx Hen. unfold memorize.
    eapply so_bind. { apply bc2_so with (T := eq) (1 := He) (2 := Hen). intros. symmetry. apply (l_lt _ _ _ _ _ _ _ _ _ _ _ L); apply (l_fin _ _ _ _ _ _ _ _ _ _ _ L); auto. }
    intros mk mk' _ _ Hm. rewrite (G rl_pidx H). eapply so_bind; [eapply gather_so; exact Hy|]. intros yq yq' _ _ Hyq.
    eapply so_bind. { apply bc2_so with (T := RD) (1 := Hx) (2 := Hyq). apply (l_sub _ _ _ _ _ _ _ _ _ _ _ L). } intros df df' _ _ Hd.
    eapply so_bind. { apply bc2_so with (T := RD) (1 := Hm) (2 := Hd). intros u u' w w' <- Hw. unfold vmask. apply (l_scale _ _ _ _ _ _ _ _ _ _ _ L); auto.
      destruct (l_01 _ _ _ _ _ _ _ _ _ _ _ L). destruct u; auto. }
    intros g g' _ _ Hg. apply so_bind with (R := entries RV).
    { destruct b; [eapply iop2_so; eauto; apply (l_add _ _ _ _ _ _ _ _ _ _ _ L)|]. apply bc2_so with (T := RV) (1 := Hyq) (2 := Hg). apply (l_add _ _ _ _ _ _ _ _ _ _ _ L). }
    intros y1 y1' _ _ Hy1. eapply so_bind; [eapply scatter_so; [exact Hy|exact Hy1]|]. intros y2 y2' _ _ Hy2.
    eapply so_bind. { apply bc2_so with (T := RF) (1 := He) (2 := Hen). apply Lmin. } intros e e' _ _ Hee. cbn [same_outcome].
    constructor; cbn [m_s m_y m_v m_ev]; auto. apply r_energy; auto. eapply entries_impl; [apply (l_fin _ _ _ _ _ _ _ _ _ _ _ L)|exact Hee].
  Qed.

  Lemma mem_inner_so : forall p o o' z2 z2' ms ms', mrel ms ms' -> orel RZ o o' -> (forall k n, RZ (z2 k n) (z2' k n)) ->
    finite_pars Fs Ft (m_s ms) -> finite_mpar CBOMem p (s_dt (m_s ms)) -> (forall r, In r (s_energy (m_s ms)) -> r <> []) ->
    same_outcome mrel (mem_inner c p o z2 ms) (mem_inner c' p o' z2' ms').
  Proof.
    intros p o o' z2 z2' [s y v ev] [s' y' v' ev'] [H He Hy Hv Hev] [Ho _] Hz (F1 & F2 & F3) (M1 & M2 & _) Hne. cbn [m_s m_y m_v m_ev] in *.
    unfold mem_inner. cbn [m_s m_y m_v].
    apply so_bind with (R := fun s1 s1' => srel s1 s1' /\ entries RF (s_energy s1) (s_energy s1') /\ s_dt s1 = s_dt s).
    { unfold mem_cbo_step. eapply so_bind; [eapply mem_consensus_so; eauto|]. intros cp cp' _ _ Hcp. cbv zeta.
      assert (H1 : srel (set_cons (Some cp) s) (set_cons (Some cp') s')) by (apply r_cons; auto).
      rewrite (G rl_pidx H1). eapply so_bind; [eapply gather_so; exact (G rl_x H1)|]. intros x x' _ _ Hx.
      eapply so_bind. { apply bc2_so with (T := RD) (1 := Hx) (2 := Hcp). apply (l_sub _ _ _ _ _ _ _ _ _ _ _ L). } intros d0 d0' _ _ Hd0.
      eapply so_bind; [exact (correction_so _ _ _ _ _ _ _ _ _ _ _ L _ _ _ _ _ _ H1 Hcp Hd0)|]. intros [d s2] [d' s2'] E2 E2' [Hd H2]. cbn in Hd, H2.
      destruct (correction_frame _ _ _ _ _ _ E2) as (G1 & G2 & G3). sstall. 
      assert (Ee : s_energy s2 = s_energy s /\ s_energy s2' = s_energy s').
      { clear - E2 E2'. unfold correction in *. destruct (c_corr c), (c_corr c').
        all: repeat match goal with H : bind _ _ = Ok _ |- _ => apply bind_ok in H; destruct H as (? & _ & H) | H : Ok _ = Ok _ |- _ => injection H as <- <- end; split; reflexivity. }
      destruct Ee as [Ee Ee'].
      eapply so_bind. { apply iop2_so with (R := RV) (S := RD); [exact Hx| |apply (l_add _ _ _ _ _ _ _ _ _ _ _ L)].
        rewrite (G rl_lamda H2), (G rl_dt H2), (G rl_sigma H2), G1, G2, G3.
        apply (amapi_entries _ _ _ _ RD RD) with (1 := Hd). intros k n a b Hab. eapply update_so; eauto; [|apply (l_time _ _ _ _ _ _ _ _ _ _ _ L); auto]. apply (l_noise _ _ _ _ _ _ _ _ _ _ _ L); auto. }
      intros x1 x1' _ _ Hx1. rewrite (G rl_pidx H2). eapply so_bind; [eapply scatter_so; [exact (G rl_x H2)|exact Hx1]|].
      intros x2 x2' _ _ Hx2. cbn [same_outcome]. split; [apply r_x; auto; apply r_drift; auto|]. sst. rewrite Ee, Ee'. split; auto. }
    intros s1 s1' _ _ (H1 & He1 & D1). apply so_bind with (R := fun s2 s2' => srel s2 s2' /\ entries RF (s_energy s2) (s_energy s2')).
    { unfold memory_step. rewrite (G rl_pidx H1). eapply so_bind; [eapply gather_so; exact (G rl_x H1)|]. intros x x' _ _ Hx.
      eapply so_bind; [eapply gather_so; exact Hy|]. intros yq yq' _ _ Hyq.
      eapply so_bind. { apply bc2_so with (T := RD) (1 := Hx) (2 := Hyq). apply (l_sub _ _ _ _ _ _ _ _ _ _ _ L). } intros d d' _ _ Hd.
      eapply so_bind. { apply iop2_so with (R := RV) (S := RD); [exact Hx| |apply (l_add _ _ _ _ _ _ _ _ _ _ _ L)].
        rewrite (G rl_dt H1), D1.
        apply (amapi_entries _ _ _ _ RD RD) with (1 := Hd). intros k n a b Hab. eapply update_so; eauto; [|apply (l_time _ _ _ _ _ _ _ _ _ _ _ L); auto]. apply (l_noise _ _ _ _ _ _ _ _ _ _ _ L); auto. }
      intros x1 x1' _ _ Hx1. eapply so_bind; [eapply scatter_so; [exact (G rl_x H1)|exact Hx1]|].
      intros x2 x2' _ _ Hx2. cbn [same_outcome]. split; [apply r_x; auto; apply r_drift; auto|exact He1]. }
    intros s2 s2' _ _ (H2 & He2). rewrite (G rl_pidx H2). eapply so_bind; [eapply gather_so; exact (G rl_x H2)|]. intros xe xe' _ _ Hxe.
    destruct (eval_so _ _ _ _ _ _ _ _ _ _ _ L _ _ _ _ Hxe H2) as [Hen H3].
    assert (E3 : s_energy (snd (eval_f c xe s2)) = s_energy s2 /\ s_energy (snd (eval_f c' xe' s2')) = s_energy s2') by (split; reflexivity). destruct E3 as [E3 E3'].
    destruct (eval_f c xe s2) as [en s3]. destruct (eval_f c' xe' s2') as [en' s3']. cbn [fst snd] in *. apply memorize_so; auto. rewrite E3, E3'; auto.
  Qed.

  Lemma pso_inner_so : forall p o o' z2 z2' ms ms', mrel ms ms' -> orel RZ o o' -> (forall k n, RZ (z2 k n) (z2' k n)) ->
    finite_pars Fs Ft (m_s ms) -> finite_mpar Pso p (s_dt (m_s ms)) -> live (s_cidx (m_s ms)) (s_energy (m_s ms)) ->
    same_outcome mrel (pso_inner c p o z2 ms) (pso_inner c' p o' z2' ms').
  Proof.
    intros p o o' z2 z2' [s y v ev] [s' y' v' ev'] [H He Hy Hv Hev] [Ho _] Hz (F1 & F2 & F3) (M1 & M2 & M34) Hne. cbn [m_s m_y m_v m_ev] in *. destruct (M34 eq_refl) as [M3 M4]. pose proof (l_time _ _ _ _ _ _ _ _ _ _ _ L _ F2) as F2s.
    unfold pso_inner. cbn [m_s m_y m_v]. cbv zeta.
    eapply so_bind; [eapply pso_consensus_so; eauto|]. intros cp cp' _ _ Hcp.
    assert (H1 : srel (set_cons (Some cp) s) (set_cons (Some cp') s')) by (apply r_cons; auto).
    assert (Q1 : s_lamda (set_cons (Some cp) s) = s_lamda s /\ s_dt (set_cons (Some cp) s) = s_dt s /\ s_sigma (set_cons (Some cp) s) = s_sigma s) by (repeat split).
    assert (Q2 : s_energy (set_cons (Some cp) s) = s_energy s /\ s_energy (set_cons (Some cp') s') = s_energy s') by (repeat split).
    revert H1 Q1 Q2. generalize (set_cons (Some cp) s) (set_cons (Some cp') s'). intros s1 s1' H1 (Q1 & Q2 & Q3) (Q4 & Q5).
    rewrite (G rl_pidx H1), (G rl_sigma H1), (G rl_dt H1), (G rl_lamda H1), Q1, Q2, Q3.
    eapply so_bind; [eapply gather_so; exact (G rl_x H1)|]. intros x x' _ _ Hx.
    eapply so_bind. { apply bc2_so with (T := RD) (1 := Hx) (2 := Hcp). apply (l_sub _ _ _ _ _ _ _ _ _ _ _ L). } intros cd cd' _ _ Hcd.
    eapply so_bind; [eapply gather_so; exact Hy|]. intros yp yp' _ _ Hyp.
    eapply so_bind. { apply bc2_so with (T := RD) (1 := Hx) (2 := Hyp). apply (l_sub _ _ _ _ _ _ _ _ _ _ _ L). } intros md md' _ _ Hmd.
    assert (LS : forall a X X', Fs a -> entries RD X X' -> entries RD (map (map (c_vscale c a)) X) (map (map (c_vscale c' a)) X')).
    { intros a X X' Ha HX. eapply map_entries; [exact HX|]. intros. apply (l_scale _ _ _ _ _ _ _ _ _ _ _ L); auto. }
    assert (LN : forall sg zz zz' X X', Fs sg -> (forall k n, RZ (zz k n) (zz' k n)) -> entries RD X X' ->
      entries RD (amapi (fun k n d => c_vscale c sg (c_noise c (s_dt s) d (zz k n))) X) (amapi (fun k n d => c_vscale c' sg (c_noise c' (s_dt s) d (zz' k n))) X')).
    { intros sg zz zz' X X' Hs Hzz HX. eapply amapi_entries; [exact HX|]. intros. apply (l_scale _ _ _ _ _ _ _ _ _ _ _ L); auto. apply (l_noise _ _ _ _ _ _ _ _ _ _ _ L); auto. }
    assert (LM : forall a b, Fs a -> Fs b -> Fs (fmul a b)) by apply (l_mul _ _ _ _ _ _ _ _ _ _ _ L).
    assert (LA : forall X X' Y Y', entries RD X X' -> entries RD Y Y' -> same_outcome (entries RD) (bc2 (c_vadd c) X Y) (bc2 (c_vadd c') X' Y')).
    { intros X X' Y Y' HX HY. apply bc2_so with (T := RD) (1 := HX) (2 := HY). apply (l_addd _ _ _ _ _ _ _ _ _ _ _ L). }
    eapply so_bind; [eapply gather_so; exact Hv|]. intros vp vp' _ _ Hvp.
    assert (Hk : entries RD (map (map (c_vscale c (fmul (s_lamda s) (s_dt s)))) cd) (map (map (c_vscale c' (fmul (s_lamda s) (s_dt s)))) cd')) by auto.
    eapply so_bind; [exact (correction_so _ _ _ _ _ _ _ _ _ _ _ L _ _ _ _ _ _ H1 Hcp Hk)|]. intros [kd s2] [kd' s2'] E2 E2' [Hkd H2]. cbn in Hkd, H2.
    destruct (correction_frame _ _ _ _ _ _ E2) as (G1 & G2 & G3).
    assert (Ee : s_energy s2 = s_energy s1 /\ s_energy s2' = s_energy s1').
    { clear - E2 E2'. unfold correction in *. destruct (c_corr c), (c_corr c').
      all: repeat match goal with H : bind _ _ = Ok _ |- _ => apply bind_ok in H; destruct H as (? & _ & H) | H : Ok _ = Ok _ |- _ => injection H as <- <- end; split; reflexivity. }
    destruct Ee as [Ee Ee']. rewrite (G rl_dt H2), (G rl_pidx H2), (G rl_fcalls H2), (G rl_nfe H2), G2, Q2.
    eapply so_bind; [apply LA; [apply LS; [auto|exact Hvp]|exact Hkd]|]. intros a1 a1' _ _ Ha1.
    eapply so_bind; [apply LA; [exact Ha1|apply LS; [auto|exact Hmd]]|]. intros a2 a2' _ _ Ha2.
    eapply so_bind; [apply LA; [exact Ha2|apply LN; [auto|exact Ho|exact Hcd]]|]. intros a3 a3' _ _ Ha3.
    eapply so_bind; [apply LA; [exact Ha3|apply LN; [auto|exact Hz|exact Hmd]]|]. intros a4 a4' _ _ Ha4.
    eapply so_bind; [eapply scatter_so; [exact Hv|apply LS; [exact M4|exact Ha4]]|]. intros v1 v1' _ _ Hv1.
    eapply so_bind; [eapply gather_so; exact (G rl_x H2)|]. intros xq xq' _ _ Hxq.
    eapply so_bind; [eapply gather_so; exact Hv1|]. intros vq vq' _ _ Hvq.
    eapply so_bind. { apply bc2_so with (T := RV) (1 := Hxq) (2 := LS _ _ _ F2s Hvq). apply (l_add _ _ _ _ _ _ _ _ _ _ _ L). } intros x1 x1' _ _ Hx1.
    eapply so_bind; [eapply scatter_so; [exact (G rl_x H2)|exact Hx1]|]. intros x2 x2' _ _ Hx2.
    eapply so_bind; [eapply gather_so; exact Hx2|]. intros xe xe' _ _ Hxe.
    apply memorize_so; auto.
    - rewrite (npoints_so _ _ _ _ _ Hxe), (shape1_so _ _ _ _ _ Hxe). apply r_fcalls; auto. apply r_nfe; auto. apply r_x; auto. apply r_drift; auto.
    - sst. rewrite Ee, Ee', Q4, Q5. exact He.
    - eapply map_entries; [exact Hxe|]. apply L.
  Qed.


  Hypothesis OO : KOrd K.

  Theorem mem_step_so : forall k p o o' z2 z2' ms ms', mrel ms ms' -> mwf c ms -> perm_ok o (m_s ms) -> s_active (m_s ms) <> [] -> orel RZ o o' -> (forall k n, RZ (z2 k n) (z2' k n)) ->
    finite_pars Fs Ft (m_s ms) -> finite_mpar k p (s_dt (m_s ms)) -> same_outcome mrel (mem_step k c p o z2 ms) (mem_step k c' p o' z2' ms').
  Proof.
    intros k p o o' z2 z2' ms ms' H W P Hne Ho Hz FP FM. destruct H as [H He Hy Hv Hev]. unfold mem_step.
    eapply so_bind; [exact (pre_so _ _ _ _ _ _ _ _ _ _ _ L _ _ _ _ Ho H)|]. intros s1 s1' E1 E1' H1.
    destruct (pre_ready c o (m_s ms) (mw_s _ _ W) P Hne) as (ci & pi & ind & Epre & R & _). rewrite E1 in Epre. injection Epre as Es1.
    assert (Q : s_energy s1 = s_energy (m_s ms) /\ s_energy s1' = s_energy (m_s ms') /\ s_lamda s1 = s_lamda (m_s ms) /\ s_dt s1 = s_dt (m_s ms) /\ s_sigma s1 = s_sigma (m_s ms)).
    { destruct (pre_step_frame _ _ _ _ E1') as (a1 & a2 & a3 & a4 & ->). subst s1. repeat split. }
    destruct Q as (Q1 & Q2 & Q3 & Q4 & Q5). rewrite <- Es1 in R. clear Es1.
    cbv zeta. apply so_bind with (R := mrel).
    - assert (M1 : mrel (mkmst s1 (m_y ms) (m_v ms) (m_ev ms)) (mkmst s1' (m_y ms') (m_v ms') (m_ev ms'))).
      { constructor; cbn [m_s m_y m_v m_ev]; auto. rewrite Q1, Q2. auto. }
      assert (FP1 : finite_pars Fs Ft s1) by (unfold finite_pars in *; rewrite Q3, Q4, Q5; auto).
      assert (FM1 : finite_mpar k p (s_dt s1)) by (rewrite Q4; auto).
      destruct k.
      + apply mem_inner_so; auto. cbn [m_s]. intros r Hr ->. apply In_nth_error in Hr. destruct Hr as [n Hn]. pose proof (proj2 (rd_e _ _ R) _ _ Hn) as E. pose proof (rd_N _ _ R) as E0. cbn in E. lia.
      + apply pso_inner_so; auto. cbn [m_s]. intros Y r HY Hr ->. destruct (gather_rect _ _ _ _ _ _ _ (rd_c _ _ R) (rd_lt _ _ R) (rd_e _ _ R) (rd_cs _ _ R)) as (Y' & EY & RY).
        rewrite EY in HY. injection HY as <-. apply In_nth_error in Hr. destruct Hr as [n Hn]. pose proof (proj2 RY _ _ Hn) as E. pose proof (rd_b _ _ R) as E0. cbn in E. lia.
    - intros ms2 ms2' _ _ M2. apply so_bind with (R := fun s s' => srel s s' /\ entries RF (s_energy s) (s_energy s')).
      + destruct M2 as [M2 M3 _ _ _]. assert (T : same_outcome srel (mem_post_step k c (m_s ms2)) (mem_post_step k c' (m_s ms2'))).
        { unfold mem_post_step. cbv zeta. fold (projected c (m_s ms2)). fold (projected c' (m_s ms2')). pose proof (projected_so _ _ _ _ _ _ _ _ _ _ _ L _ _ M2) as PP. unfold projected' in PP. fold (projected c' (m_s ms2')) in PP.
          eapply so_bind; [|intros a b _ _ Hab; exact (finish_so _ _ _ _ _ _ _ _ _ _ _ L a b Hab)].
          destruct k; [unfold mem_update_best_cur; exact (best_cur_so _ _ _ _ _ _ _ _ _ _ _ L _ _ _ _ PP (G rl_x PP))|].
          unfold update_best_cur. refine (best_cur_so _ _ _ _ _ _ _ _ _ _ _ L _ _ _ _ PP _).
          pose proof (G rl_xold PP) as Hxo. destruct (s_xold (projected c (m_s ms2))), (s_xold (projected c' (m_s ms2'))); cbn in Hxo; try contradiction; auto. exact (G rl_x PP). }
        destruct (mem_post_step k c (m_s ms2)) as [a|] eqn:Ea; destruct (mem_post_step k c' (m_s ms2')) as [b|] eqn:Eb; cbn in T |- *; auto. split; auto.
        rewrite (proj1 (post_energy _ _ _ _ Ea)), (proj1 (post_energy _ _ _ _ Eb)). auto.
      + intros a b _ _ [Ha Hb]. cbn [same_outcome]. constructor; cbn [m_s m_y m_v m_ev]; auto; apply M2.
  Qed.

  Theorem mem_init_so : forall x0 x0' checked alpha alpha' sigma lamda dt perm0 names extra save, entries RV x0 x0' -> RA alpha alpha' ->
    same_outcome mrel (mem_init c x0 checked alpha sigma lamda dt perm0 names extra save) (mem_init c' x0' checked alpha' sigma lamda dt perm0 names extra save).
  Proof.
    intros. unfold mem_init. eapply so_bind; [eapply init_so; eauto|]. intros s s' _ _ Hs. cbn [same_outcome].
    rewrite (G rl_fcalls Hs), (npoints_so _ _ _ _ _ (G rl_x Hs)), (G rl_nfe Hs), (G rl_N Hs).
    assert (HE : entries RF (map (map (c_f c)) (s_x s)) (map (map (c_f c')) (s_x s'))) by (eapply map_entries; [exact (G rl_x Hs)|apply L]).
    constructor; cbn [m_s m_y m_v m_ev].
    - apply r_energy. apply r_fcalls; auto. apply r_nfe; auto. eapply entries_impl; [apply (l_fin _ _ _ _ _ _ _ _ _ _ _ L)|]. exact HE.
    - exact HE.
    - exact (G rl_x Hs).
    - eapply map_entries; [exact (G rl_x Hs)|]. apply Lzero.
    - exact (G rl_x Hs).
  Qed.

  (** corresponding calls; [dt] is the current time step *)
  Fixpoint calls_related (k : mkind) (M N : nat) (dt : F) (l : list (mcall (K := K) (V := V))) (l' : list (mcall (K := K) (V := V'))) : Prop :=
    match l, l' with
    | [], [] => True
    | McStep p o z2 :: l, McStep p' o' z2' :: l' => p' = p /\ orel RZ o o' /\ (forall k n, RZ (z2 k n) (z2' k n)) /\ finite_mpar k p dt /\
        (forall m, m < M -> Permutation (o_perm o m) (seq 0 N)) /\ calls_related k M N dt l l'
    | McTerminate :: l, McTerminate :: l' => calls_related k M N dt l l'
    | McReset :: l, McReset :: l' => calls_related k M N dt l l'
    | McParameters a sg la d :: l, McParameters a' sg' la' d' :: l' => RA a a' /\ sg' = sg /\ la' = la /\ d' = d /\ Fs sg /\ Fs la /\ Ft d /\ calls_related k M N d l l'
    | _, _ => False
    end.

  Theorem mem_play_so : forall k l l' ms ms', calls_related k (s_M (m_s ms)) (s_N (m_s ms)) (s_dt (m_s ms)) l l' -> mwf c ms -> finite_pars Fs Ft (m_s ms) -> mrel ms ms' ->
    same_outcome mrel (mem_play k c l ms) (mem_play k c' l' ms').
  Proof.
    intros k. induction l as [|a l IH]; intros [|a' l'] ms ms' HC W FP HM; cbn in HC; try contradiction; try (destruct a; contradiction).
    { exact HM. }
    destruct HM as [H He Hy Hv Hev]. destruct a as [p o z2| |al sg la dt|], a' as [p' o' z2'| |al' sg' la' dt'|]; try contradiction; cbn [mem_play mem_do].
    - destruct HC as (-> & Ho & Hz & FM & Hp & HC). rewrite (G rl_active H). destruct (s_active (m_s ms)) as [|m0 act] eqn:Ea.
      { cbn [bind]. apply IH; auto. constructor; auto. }
      assert (Hne : s_active (m_s ms) <> []) by (rewrite Ea; discriminate).
      assert (PV : perm_ok o (m_s ms)) by (apply perms_valid_ok; exact Hp).
      eapply so_bind; [apply mem_step_so; auto; constructor; auto|]. intros ms1 ms1' E1 _ M1.
      destruct (mem_step_ok _ _ _ _ _ _ _ W PV Hne E1) as (_ & _ & W1 & A4 & A5 & _). destruct (keeps_step _ _ _ _ _ _ _ E1) as (K1 & K2 & K3).
      apply IH; auto. { rewrite A4, A5, K2. auto. } unfold finite_pars in *. rewrite K1, K2, K3. auto.
    - eapply so_bind. { eapply so_bind; [exact (terminate_so _ _ _ _ _ _ _ _ _ _ _ L _ _ H)|]. intros [b s1] [b' s1'] E1 E1' [_ T]. cbn [snd] in T. cbn [same_outcome snd].
        instantiate (1 := fun u u' => mrel u u' /\ mwf c u /\ s_M (m_s u) = s_M (m_s ms) /\ s_N (m_s u) = s_N (m_s ms) /\ keeps (m_s ms) (m_s u)).
        pose proof (terminate_wf _ _ _ _ E1 (mw_s _ _ W)) as W1. destruct (terminate_char _ _ _ _ E1) as (act & rs & Es & _). destruct (terminate_char _ _ _ _ E1') as (act' & rs' & Es' & _).
        unfold on_state. split; [constructor; cbn [m_s m_y m_v m_ev]; auto; rewrite Es, Es'; sst; auto|]. cbn [m_s].
        split; [constructor; cbn [m_s m_y m_v]; auto; rewrite Es; sst; apply W|]. rewrite Es. repeat split. }
      intros ms1 ms1' _ _ (M1 & W1 & A1 & A2 & (K1 & K2 & K3)). apply IH; auto. { rewrite A1, A2, K2. auto. } unfold finite_pars in *. rewrite K1, K2, K3. auto.
    - destruct HC as (Ha & -> & -> & -> & F1 & F2 & F3 & HC). cbn [bind]. rewrite (G rl_M H). apply IH.
      + exact HC.
      + unfold on_state. destruct W as [Ws Wy Wv]. constructor; cbn [m_s m_y m_v]; auto. eapply params_wf; [|exact Ws]. eexists _, _, _, _. split; [|reflexivity].
        intros _. split; [apply repeat_length|]. apply Forall_forall. intros r Hr. apply repeat_spec in Hr. subst. auto.
      + unfold on_state, finite_pars. cbn [m_s]. sst. auto.
      + unfold on_state. constructor; cbn [m_s m_y m_v m_ev]; auto. destruct H. constructor; sst; auto. apply F2_repeat. constructor; auto.
    - cbn [bind]. destruct (reset_char (m_s ms)) as (ts & h & E & _). apply IH.
      + unfold on_state. cbn [m_s]. rewrite E. exact HC.
      + unfold on_state. destruct W as [Ws Wy Wv]. constructor; cbn [m_s m_y m_v]; auto. apply reset_wf; auto. all: rewrite E; sst; auto.
      + unfold on_state. cbn [m_s]. rewrite E. exact FP.
      + unfold on_state. constructor; cbn [m_s m_y m_v m_ev]; auto. { unfold reset. apply r_t; auto. eapply init_history_so. apply r_it; auto. }
  Qed.

  Theorem mem_session_so : forall k x0 x0' checked alpha alpha' sigma lamda dt perm0 names extra save l l', entries RV x0 x0' -> RA alpha alpha' ->
    is_array (length x0) (shape1 x0) x0 -> 1 <= shape1 x0 -> 1 <= c_bsize c <= shape1 x0 ->
    (forall m, m < length x0 -> Permutation (perm0 m) (seq 0 (shape1 x0))) -> save <> Some 0 -> Fs sigma -> Fs lamda -> Ft dt ->
    calls_related k (length x0) (shape1 x0) dt l l' ->
    same_outcome mrel (mem_session k c x0 checked alpha sigma lamda dt perm0 names extra save l) (mem_session k c' x0' checked alpha' sigma lamda dt perm0 names extra save l').
  Proof.
    intros k x0 x0' checked alpha alpha' sigma lamda dt perm0 names extra save l l' Hx Ha A1 A2 A3 A4 A5 F1 F2 F3 HC. unfold mem_session.
    eapply so_bind; [eapply mem_init_so; eauto|]. intros ms ms' E _ HM.
    assert (W : mwf c ms). { apply mem_constructed_wf. exists x0, checked, alpha, sigma, lamda, dt, perm0, names, extra, save. auto 10. }
    assert (Q : s_M (m_s ms) = length x0 /\ s_N (m_s ms) = shape1 x0 /\ s_lamda (m_s ms) = lamda /\ s_dt (m_s ms) = dt /\ s_sigma (m_s ms) = sigma).
    { unfold mem_init in E. apply bind_ok in E. destruct E as (s & E1 & E). injection E as <-. cbn [m_s]. sst. unfold init in E1. apply bind_ok in E1. destruct E1 as (bp & _ & E1). cbv zeta in E1. injection E1 as <-.
      clear. unfold init_history. cbv zeta.
      assert (P : forall ts s, s_M s = length x0 /\ s_N s = shape1 x0 /\ s_lamda s = lamda /\ s_dt s = dt /\ s_sigma s = sigma ->
        let s' := fold_left (fun (acc : st K V) t => trk_init t acc) ts s in s_M s' = length x0 /\ s_N s' = shape1 x0 /\ s_lamda s' = lamda /\ s_dt s' = dt /\ s_sigma s' = sigma).
      { induction ts as [|t ts IHt]; intros s P; cbn [fold_left]; auto. apply IHt. destruct t; exact P. }
      apply P. repeat split. }
    destruct Q as (Q1 & Q2 & Q3 & Q4 & Q5). apply mem_play_so; auto. { rewrite Q1, Q2, Q4. auto. } unfold finite_pars. rewrite Q3, Q4, Q5. auto.
  Qed.
End SimMem.
