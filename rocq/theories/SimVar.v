(** * Related sessions of the variants of CBO *)
From Coq Require Import String List Arith Bool Permutation Lia.
From Verif Require Import Scalar Np NpFacts State Pdyn PdynFacts PdynStep PdynRun PdynOk Exec StepFrame MemFacts MemFacts2 Variant VarSpec VarFacts VarMove SimSpec SimNp SimFacts SessSpec SimCbo VarSessSpec.
Import ListNotations.
Open Scope nat_scope.
Open Scope list_scope.

Section SimVar.
  Context {K V V' : Type} {O : KOps K}.
  Notation F := (fl K).
  Variables (RV RD RZ : V -> V' -> Prop) (RE RF RA RU : F -> F -> Prop) (Fs Ft : F -> Prop).
  Variables (c : cfg K V) (c' : cfg K V').
  Hypothesis L : laws RV RD RZ RE RF RA RU Fs Ft c c'.
  Notation srel := (state_related RV RD RE RA RU).

  Section Generic.
    Context {E E' : Type} (inner : cfg K V -> orc V -> st K V -> E -> res (st K V * E)) (attr : st K V -> E)
      (inner' : cfg K V' -> orc V' -> st K V' -> E' -> res (st K V' * E')) (attr' : st K V' -> E')
      (Q : nat -> nat -> E -> Prop) (G : cfg K V -> Prop) (ER : E -> E' -> Prop).
    Hypothesis REG : regular inner Q G.
    Hypothesis QA : forall (c : cfg K V) (s : st K V), wf c s -> Q (s_M s) (s_N s) (attr s).
    Hypothesis HG : G c.
    Hypothesis INS : forall o o' s s' e e', orel RZ o o' -> srel s s' -> live (s_cidx s) (s_x s) -> finite_pars Fs Ft s -> ER e e' ->
      same_outcome (both srel ER) (inner c o s e) (inner' c' o' s' e').
    (** the inner step assigns no parameters *)
    Hypothesis FRM : forall o s e s2 e2, inner c o s e = Ok (s2, e2) -> same_setting s s2.

    Theorem vstep_so : forall o o' s s' e e', wf c s -> perm_ok o s -> orel RZ o o' -> finite_pars Fs Ft s -> srel s s' -> ER e e' ->
      same_outcome (both srel ER) (vstep inner c o (s, e)) (vstep inner' c' o' (s', e')).
    Proof.
      intros o o' s s' e e' W P Ho FP H He. unfold vstep. cbn [fst snd]. eapply so_bind; [exact (pre_so _ _ _ _ _ _ _ _ _ _ _ L _ _ _ _ Ho H)|]. intros s1 s1' E1 _ H1.
      eapply so_bind.
      - apply INS; eauto. { eapply pre_live; eauto. } destruct (pre_step_frame _ _ _ _ E1) as (? & ? & ? & ? & ->). exact FP.
      - intros [s2 e2] [s2' e2'] _ _ [H2 H2e]. cbn [fst snd] in *. eapply so_bind; [exact (post_so _ _ _ _ _ _ _ _ _ _ _ L _ _ H2)|].
        intros s3 s3' _ _ H3. split; auto.
    Qed.

    Lemma vstep_setting : forall o s e s1 e1, vstep inner c o (s, e) = Ok (s1, e1) -> same_setting s s1.
    Proof.
      intros o s e s' e' H. unfold vstep in H. cbn [fst snd] in H. apply bind_ok in H. destruct H as (t1 & T1 & H). apply bind_ok in H. destruct H as ([t2 e2] & T2 & H).
      apply bind_ok in H. destruct H as (t3 & T3 & H). cbn [fst snd] in *. injection H as <- <-. apply FRM in T2.
      apply pre_step_frame in T1. destruct T1 as (? & ? & ? & ? & ->). destruct T2 as (A1 & A2 & A3 & A4 & A5).
      apply post_step_frame in T3. destruct T3 as (? & ? & ? & ? & ? & ? & ? & s5 & T4 & ->).
      apply track_frame in T4. destruct T4 as (ti & ts & h & ->). unfold same_setting in *. sst. auto.
    Qed.

    Theorem var_play_so : forall l l' s s' e e' n log, cbo_calls_related RZ RA Fs Ft (s_M s) (s_N s) l l' -> vexec inner attr c n (s, e) log -> finite_pars Fs Ft s -> srel s s' -> ER e e' ->
      same_outcome (both srel ER) (var_play inner c l (s, e)) (var_play inner' c' l' (s', e')).
    Proof.
      induction l as [|a l IH]; intros [|a' l'] s s' e e' n log HC E0 FP H He; cbn in HC; try contradiction; try (destruct a; contradiction). { split; auto. }
      destruct (vexec_inv _ _ _ _ REG QA _ _ _ _ _ HG E0) as [W HQ].
      destruct a as [o| |al sg la dt|], a' as [o'| |al' sg' la' dt'|]; try contradiction; cbn [var_play var_do fst snd].
      - destruct HC as (Ho & Hp & HC). assert (PV : perms_valid o s) by exact Hp. pose proof (rl_active _ _ _ _ _ _ _ H) as EA. rewrite EA.
        destruct (s_active s) as [|m0 ms] eqn:Eact. { cbn [bind]. eapply IH; eauto. }
        eapply so_bind; [apply vstep_so; eauto; apply perms_valid_ok; exact PV|]. intros [s1 e1] [s1' e1'] E1 _ [H1 H1e]. cbn [fst snd] in *.
        destruct (vstep_setting _ _ _ _ _ E1) as (S1 & S2 & S3 & S4 & S5). eapply IH; eauto.
        + rewrite S1, S2. auto.
        + eapply vx_step; eauto. rewrite Eact. discriminate.
        + unfold finite_pars in *. rewrite S3, S4, S5. auto.
      - eapply so_bind with (R := fun u u' => both srel ER u u' /\ vexec inner attr c n u log /\ same_setting s (fst u)).
        { cbn [cbo_do]. eapply so_bind with (R := fun u u' => srel u u' /\ vexec inner attr c n (u, e) log /\ same_setting s u).
          { eapply so_bind; [exact (terminate_so _ _ _ _ _ _ _ _ _ _ _ L _ _ H)|]. intros [b s1] [b' s1'] E1 _ [_ T]. cbn [snd] in T. cbn [same_outcome snd]. split; auto.
            split; [eapply vx_term; eauto|]. destruct (terminate_char _ _ _ _ E1) as (act & rs & Es & _). rewrite Es. repeat split. }
          intros u u' _ _ (U1 & U2 & U3). cbn. split; [split; auto|]. split; auto. }
        intros [s1 e1] [s1' e1'] _ _ ([H1 H1e] & E1 & (S1 & S2 & S3 & S4 & S5)). cbn [fst snd] in *. eapply IH; eauto. { rewrite S1, S2. auto. } unfold finite_pars in *. rewrite S3, S4, S5. auto.
      - destruct HC as (Ha & -> & -> & -> & F1 & F2 & F3 & HC). cbn [cbo_do bind]. rewrite (rl_M _ _ _ _ _ _ _ H). eapply IH with (log := log) (n := n); auto.
        + eapply vx_params; [exact E0|]. eexists _, _, _, _. split; [|reflexivity].
          intros _. split; [apply repeat_length|]. apply Forall_forall. intros r Hr. apply repeat_spec in Hr. subst. auto.
        + unfold finite_pars. sst. auto.
        + destruct H. constructor; sst; auto. apply F2_repeat. constructor; auto.
      - cbn [cbo_do bind]. destruct (reset_char s) as (ts & h & Er & _). eapply IH with (log := log) (n := n); auto.
        + apply vx_reset; auto.
        + unfold reset. apply r_t; auto. eapply init_history_so. apply r_it; auto.
    Qed.

    Theorem var_session_so : forall x0 x0' checked alpha alpha' sigma lamda dt perm0 names extra save l l', entries RV x0 x0' -> RA alpha alpha' ->
      (forall s s', s_x s = x0 -> s_x s' = x0' -> ER (attr s) (attr' s')) ->
      is_array (length x0) (shape1 x0) x0 -> 1 <= shape1 x0 -> 1 <= c_bsize c <= shape1 x0 ->
      (forall m, m < length x0 -> Permutation (perm0 m) (seq 0 (shape1 x0))) -> save <> Some 0 -> Fs sigma -> Fs lamda -> Ft dt ->
      cbo_calls_related RZ RA Fs Ft (length x0) (shape1 x0) l l' ->
      same_outcome (both srel ER) (var_session inner attr c x0 checked alpha sigma lamda dt perm0 names extra save l)
        (var_session inner' attr' c' x0' checked alpha' sigma lamda dt perm0 names extra save l').
    Proof.
      intros x0 x0' checked alpha alpha' sigma lamda dt perm0 names extra save l l' Hx Ha ATT A1 A2 A3 A4 A5 F1 F2 F3 HC. unfold var_session.
      eapply so_bind; [eapply (init_so _ _ _ _ _ _ _ _ _ _ _ L); eauto|]. intros s s' E0 E0' HM.
      assert (EX : vexec inner attr c 0 (s, attr s) []). { apply vx_init. exists x0, checked, alpha, sigma, lamda, dt, perm0, names, extra, save. auto 10. }
      assert (QQ : s_M s = length x0 /\ s_N s = shape1 x0 /\ s_lamda s = lamda /\ s_dt s = dt /\ s_sigma s = sigma).
      { unfold init in E0. apply bind_ok in E0. destruct E0 as (bp & _ & E0). cbv zeta in E0.
        match type of E0 with context [init_history ?a ?b ?c ?d] => destruct (init_history_char a b c d) as (ts & h & EI & _); rewrite EI in E0 end. injection E0 as <-. repeat split. }
      assert (X1 : s_x s = x0).
      { unfold init in E0. apply bind_ok in E0. destruct E0 as (bp & _ & E0). cbv zeta in E0.
        match type of E0 with context [init_history ?a ?b ?c ?d] => destruct (init_history_char a b c d) as (ts & h & EI & _); rewrite EI in E0 end. injection E0 as <-. reflexivity. }
      assert (X2 : s_x s' = x0').
      { unfold init in E0'. apply bind_ok in E0'. destruct E0' as (bp & _ & E0'). cbv zeta in E0'.
        match type of E0' with context [init_history ?a ?b ?c ?d] => destruct (init_history_char a b c d) as (ts & h & EI & _); rewrite EI in E0' end. injection E0' as <-. reflexivity. }
      destruct QQ as (Q1 & Q2 & Q3 & Q4 & Q5). eapply var_play_so; eauto. { rewrite Q1, Q2. auto. } unfold finite_pars. rewrite Q3, Q4, Q5. auto.
    Qed.
  End Generic.

  (** ** the inner steps *)
  Lemma the_cons_so : forall s s', srel s s' -> same_outcome (entries RV) (the_cons s) (the_cons s').
  Proof.
    intros s s' H. unfold the_cons. pose proof (rl_cons _ _ _ _ _ _ _ H) as Hc. destruct (s_cons s), (s_cons s'); cbn in *; try contradiction; auto.
  Qed.
  Lemma consensus_setting : forall s s1, compute_consensus c s = Ok s1 -> same_setting s s1.
  Proof.
    intros s s1 H. unfold compute_consensus in H. apply bind_ok in H. destruct H as (s0 & H0 & H).
    assert (P : same_setting s s0).
    { unfold maybe_save_points in H0. destruct (c_savepts c); [|injection H0 as <-; repeat split]. destruct (s_cep s).
      - apply bind_ok in H0. destruct H0 as (? & _ & H0). apply bind_ok in H0. destruct H0 as (? & _ & H0). injection H0 as <-. repeat split.
      - injection H0 as <-. repeat split. }
    apply bind_ok in H. destruct H as (xs & _ & H). unfold eval_f in H. apply bind_ok in H. destruct H as (? & _ & H). apply bind_ok in H. destruct H as (? & _ & H).
    apply bind_ok in H. destruct H as (? & _ & H). injection H as <-. exact P.
  Qed.
  Lemma correction_setting : forall cp dr s d s2, correction c cp dr s = Ok (d, s2) -> same_setting s s2.
  Proof.
    intros cp dr s d s2 H. unfold correction in H. destruct (c_corr c). { injection H as <- <-. repeat split. }
    apply bind_ok in H. destruct H as (? & _ & H). apply bind_ok in H. destruct H as (? & _ & H). injection H as <- <-. repeat split.
  Qed.
  Lemma setting_trans : forall s1 s2 s3 : st K V, same_setting s1 s2 -> same_setting s2 s3 -> same_setting s1 s3.
  Proof. intros s1 s2 s3 (A1 & A2 & A3 & A4 & A5) (B1 & B2 & B3 & B4 & B5). unfold same_setting. repeat split; congruence. Qed.

  Section Mirror.
    Variables (RY : V -> V' -> Prop) (gc : V -> V) (gc' : V' -> V').
    Hypothesis Hgc : forall y y', RY y y' -> RV (gc y) (gc' y').
    Hypothesis Hya : forall y y' u u', RY y y' -> RD u u' -> RY (c_vadd c y u) (c_vadd c' y' u').
    Lemma mirror_frame : forall o s y s2 y2, mirror_inner gc c o s y = Ok (s2, y2) -> same_setting s s2.
    Proof.
      intros o s y s2 y2 H. unfold mirror_inner in H. apply bind_ok in H. destruct H as (s1 & H1 & H). do 3 (apply bind_ok in H; destruct H as (? & _ & H)).
      apply bind_ok in H. destruct H as ([d s3] & H3 & H). cbv zeta in H. do 3 (apply bind_ok in H; destruct H as (? & _ & H)). injection H as <- <-.
      eapply setting_trans; [exact (consensus_setting _ _ H1)|]. exact (correction_setting _ _ _ _ _ H3).
    Qed.
    Lemma mirror_so : forall o o' s s' y y', orel RZ o o' -> srel s s' -> live (s_cidx s) (s_x s) -> finite_pars Fs Ft s -> entries RY y y' ->
      same_outcome (both srel (entries RY)) (mirror_inner gc c o s y) (mirror_inner gc' c' o' s' y').
    Proof.
      intros o o' s s' y y' [Ho _] H HL FP Hy. unfold mirror_inner. eapply so_bind; [exact (consensus_so _ _ _ _ _ _ _ _ _ _ _ L s s' H HL)|]. intros s1 s1' E1 _ H1.
      destruct (consensus_setting _ _ E1) as (_ & _ & F1 & F2 & F3). eapply so_bind; [exact (the_cons_so _ _ H1)|]. intros cp cp' _ _ Hc.
      rewrite (rl_pidx _ _ _ _ _ _ _ H1). eapply so_bind; [eapply gather_so; exact (rl_x _ _ _ _ _ _ _ H1)|]. intros x x' _ _ Hx.
      eapply so_bind. { apply bc2_so with (T := RD) (1 := Hx) (2 := Hc). apply (l_sub _ _ _ _ _ _ _ _ _ _ _ L). } intros d0 d0' _ _ Hd0.
      eapply so_bind; [exact (correction_so _ _ _ _ _ _ _ _ _ _ _ L _ _ _ _ _ _ H1 Hc Hd0)|]. intros [d s2] [d' s2'] E2 _ [Hd H2]. cbn in Hd, H2. cbv zeta.
      destruct (correction_setting _ _ _ _ _ E2) as (_ & _ & G1 & G2 & G3). destruct FP as (FP1 & FP2 & FP3).
      rewrite (rl_pidx _ _ _ _ _ _ _ H2). eapply so_bind; [eapply gather_so; exact Hy|]. intros yp yp' _ _ Hyp.
      eapply so_bind. { apply iop2_so with (R := RY) (S := RD); [exact Hyp| |exact Hya].
        rewrite (rl_lamda _ _ _ _ _ _ _ H2), (rl_dt _ _ _ _ _ _ _ H2), (rl_sigma _ _ _ _ _ _ _ H2), G1, G2, G3, F1, F2, F3.
        apply (amapi_entries _ _ _ _ RD RD) with (1 := Hd). intros k n a b Hab. apply (update_so _ _ _ _ _ _ _ _ _ _ _ L); auto; [apply (l_noise _ _ _ _ _ _ _ _ _ _ _ L); auto|apply (l_time _ _ _ _ _ _ _ _ _ _ _ L); auto]. }
      intros y1 y1' _ _ Hy1. eapply so_bind; [eapply scatter_so; [exact Hy|exact Hy1]|]. intros y2 y2' _ _ Hy2. cbn [same_outcome]. split; cbn [fst snd]; auto.
      apply r_x; [apply r_drift; auto|]. eapply map_entries; eauto.
    Qed.
  End Mirror.

  Section Adam.
    Variables (RS : V -> V' -> Prop) (vsq : V -> V) (vsq' : V' -> V') (vquot : F -> V -> V -> V) (vquot' : F -> V' -> V' -> V') (p : @apar K) (z : V) (z' : V').
    Hypothesis Hz : RD z z' /\ RS z z'.
    Hypothesis Hsubd : forall u u' w w', RD u u' -> RD w w' -> RD (c_vsub c u w) (c_vsub c' u' w').
    Hypothesis Hsubp : forall u u' w w', RV u u' -> RD w w' -> RV (c_vsub c u w) (c_vsub c' u' w').
    Hypothesis Hadds : forall u u' w w', RS u u' -> RS w w' -> RS (c_vadd c u w) (c_vadd c' u' w').
    Hypothesis Hfin : Fs (a_b0 p) /\ Fs (fsub (Fin k1) (a_b0 p)) /\ forall n, Fs (fdiv (Fin k1) (fsub (Fin k1) (fpow (a_b0 p) (S n)))).
    Hypothesis Hs1 : forall u u', RS u u' -> RS (c_vscale c (a_b1 p) u) (c_vscale c' (a_b1 p) u').
    Hypothesis Hs2 : forall u u', RD u u' -> RS (c_vscale c (fsub (Fin k1) (a_b1 p)) (vsq u)) (c_vscale c' (fsub (Fin k1) (a_b1 p)) (vsq' u')).
    Hypothesis Hs3 : forall n u u', RS u u' -> RS (c_vscale c (fdiv (Fin k1) (fsub (Fin k1) (fpow (a_b1 p) (S n)))) u) (c_vscale c' (fdiv (Fin k1) (fsub (Fin k1) (fpow (a_b1 p) (S n)))) u').
    Hypothesis Hq : forall m m' v v', RD m m' -> RS v v' -> RD (vquot (a_eps p) m v) (vquot' (a_eps p) m' v').
    Lemma adam_frame : forall o s y s2 y2, adam_inner vsq vquot p c o s y = Ok (s2, y2) -> same_setting s s2.
    Proof.
      intros o s [m v] s2 y2 H. unfold adam_inner in H. apply bind_ok in H. destruct H as (s1 & H1 & H). cbv zeta in H. do 15 (apply bind_ok in H; destruct H as (? & _ & H)).
      injection H as <- <-. exact (consensus_setting _ _ H1).
    Qed.
    Lemma adam_so : forall o o' s s' y y', orel RZ o o' -> srel s s' -> live (s_cidx s) (s_x s) -> finite_pars Fs Ft s -> both (entries RD) (entries RS) y y' ->
      same_outcome (both srel (both (entries RD) (entries RS))) (adam_inner vsq vquot p c o s y) (adam_inner vsq' vquot' p c' o' s' y').
    Proof.
      intros o o' s s' [m v] [m' v'] [Ho _] H HL FP [Hm Hv]. cbn [fst snd] in *. unfold adam_inner. eapply so_bind; [exact (consensus_so _ _ _ _ _ _ _ _ _ _ _ L s s' H HL)|]. intros s1 s1' E1 _ H1.
      destruct (consensus_setting _ _ E1) as (_ & _ & F1 & F2 & F3). eapply so_bind; [exact (the_cons_so _ _ H1)|]. intros cp cp' _ _ Hc.
      rewrite (rl_pidx _ _ _ _ _ _ _ H1), (rl_it _ _ _ _ _ _ _ H1), (rl_lamda _ _ _ _ _ _ _ H1), (rl_dt _ _ _ _ _ _ _ H1), (rl_sigma _ _ _ _ _ _ _ H1), F1, F2, F3.
      destruct FP as (FP1 & FP2 & FP3). destruct Hfin as (B1 & B2 & B3). pose proof (l_scale _ _ _ _ _ _ _ _ _ _ _ L) as LS. cbv zeta.
      eapply so_bind; [eapply gather_so; exact (rl_x _ _ _ _ _ _ _ H1)|]. intros x x' _ _ Hx.
      eapply so_bind. { apply bc2_so with (T := RD) (1 := Hx) (2 := Hc). apply (l_sub _ _ _ _ _ _ _ _ _ _ _ L). } intros d d' _ _ Hd.
      eapply so_bind; [eapply gather_so; exact Hm|]. intros mp mp' _ _ Hmp.
      eapply so_bind. { apply bc2_so with (R := RD) (S := RD) (T := RD); [eapply map_entries; eauto|eapply map_entries; eauto|]. apply (l_addd _ _ _ _ _ _ _ _ _ _ _ L). } intros mp1 mp1' _ _ Hmp1.
      eapply so_bind; [eapply scatter_so; [exact Hm|exact Hmp1]|]. intros m1 m1' _ _ Hm1.
      eapply so_bind; [eapply gather_so; exact Hv|]. intros vp vp' _ _ Hvp.
      eapply so_bind. { apply bc2_so with (R := RS) (S := RS) (T := RS); [eapply map_entries; eauto|eapply map_entries; eauto|exact Hadds]. } intros vp1 vp1' _ _ Hvp1.
      eapply so_bind; [eapply scatter_so; [exact Hv|exact Hvp1]|]. intros v1 v1' _ _ Hv1.
      eapply so_bind; [eapply gather_so; exact Hm1|]. intros mq mq' _ _ Hmq.
      eapply so_bind; [eapply gather_so; exact Hv1|]. intros vq vq' _ _ Hvq.
      eapply so_bind. { apply bc2_so with (R := RD) (S := RS) (T := RD); [eapply map_entries; eauto|eapply map_entries; eauto|exact Hq]. } intros q q' _ _ Hqq.
      eapply so_bind. { apply bc2_so with (R := RD) (S := RD) (T := RD); [eapply map_entries; eauto| |exact Hsubd].
        apply (amapi_entries _ _ _ _ RD RD) with (1 := Hd). intros k n a b Hab. apply LS; auto. apply (l_noise _ _ _ _ _ _ _ _ _ _ _ L); auto. }
      intros u u' _ _ Hu. eapply so_bind. { apply iop2_so with (R := RV) (S := RD); [exact Hx|exact Hu|exact Hsubp]. } intros x1 x1' _ _ Hx1.
      eapply so_bind; [eapply scatter_so; [exact (rl_x _ _ _ _ _ _ _ H1)|exact Hx1]|]. intros x2 x2' _ _ Hx2. cbn [same_outcome]. split; cbn [fst snd]; [|split; auto].
      apply r_x; [apply r_drift; auto|auto].
    Qed.
    Lemma adam_attr_so : forall (s : st K V) (s' : st K V') x0 x0', entries RV x0 x0' -> s_x s = x0 -> s_x s' = x0' -> both (entries RD) (entries RS) (adam_attr z s) (adam_attr z' s').
    Proof. intros s s' x0 x0' H Ex Ex'. unfold adam_attr. rewrite Ex, Ex'. split; cbn [fst snd]; eapply map_entries; try exact H; intros; apply Hz. Qed.
  End Adam.

  Lemma solve_all_so : forall (f : V -> V -> res V) (f' : V' -> V' -> res V') (R S T : V -> V' -> Prop) X X' Y Y', entries R X X' -> entries S Y Y' ->
    (forall x x' y y', R x x' -> S y y' -> same_outcome T (f x y) (f' x' y')) -> same_outcome (entries T) (solve_all f X Y) (solve_all f' X' Y').
  Proof.
    intros f f' R S T X X' Y Y' HX HY Hf. unfold solve_all. eapply so_bind.
    { apply bc2_so with (R := R) (S := S) (T := both R S); eauto. intros. split; auto. }
    intros rows rows' _ _ HR. eapply mapM_so; [exact HR|]. intros r r' _ Hr. eapply mapM_so; [exact Hr|]. intros [a b] [a' b'] _ [H1 H2]. cbn in *. auto.
  Qed.

  Section Dc.
    Variables (g : multi (K := K) (V := V)) (g' : multi (K := K) (V := V')) (eps : F).
    Hypothesis Hsubp : forall u u' w w', RV u u' -> RD w w' -> RV (c_vsub c u w) (c_vsub c' u' w').
    Hypothesis Hgrad : forall v v', RV v v' -> RD (g_grad g v) (g_grad g' v').
    Hypothesis Heps : forall dt, Ft dt -> Fs (fdiv dt eps).
    Hypothesis Hsolve : forall a v v' u u', Fs a -> RV v v' -> RD u u' -> same_outcome RD (g_solve g a v u) (g_solve g' a v' u').
    Lemma dc_frame : forall o s y s2 y2, dc_inner (Some g) eps c o s y = Ok (s2, y2) -> same_setting s s2.
    Proof.
      intros o s y s2 y2 H. unfold dc_inner in H. apply bind_ok in H. destruct H as (s1 & H1 & H). cbv zeta in H. do 6 (apply bind_ok in H; destruct H as (? & _ & H)).
      injection H as <- <-. exact (consensus_setting _ _ H1).
    Qed.
    Lemma dc_so : forall o o' s s' (y y' : unit), orel RZ o o' -> srel s s' -> live (s_cidx s) (s_x s) -> finite_pars Fs Ft s -> y' = y ->
      same_outcome (both srel (fun a b => b = a)) (dc_inner (Some g) eps c o s y) (dc_inner (Some g') eps c' o' s' y').
    Proof.
      intros o o' s s' y y' [Ho _] H HL FP Hy. unfold dc_inner. eapply so_bind; [exact (consensus_so _ _ _ _ _ _ _ _ _ _ _ L s s' H HL)|]. intros s1 s1' E1 _ H1.
      destruct (consensus_setting _ _ E1) as (_ & _ & F1 & F2 & F3). eapply so_bind; [exact (the_cons_so _ _ H1)|]. intros cp cp' _ _ Hc.
      rewrite (rl_lamda _ _ _ _ _ _ _ H1), (rl_dt _ _ _ _ _ _ _ H1), (rl_sigma _ _ _ _ _ _ _ H1), F1, F2, F3.
      destruct FP as (FP1 & FP2 & FP3). pose proof (l_scale _ _ _ _ _ _ _ _ _ _ _ L) as LS. pose proof (rl_x _ _ _ _ _ _ _ H1) as Hx. cbv zeta.
      eapply so_bind. { apply bc2_so with (T := RD) (1 := Hx) (2 := Hc). apply (l_sub _ _ _ _ _ _ _ _ _ _ _ L). } intros d d' _ _ Hd.
      eapply so_bind. { apply bc2_so with (R := RD) (S := RD) (T := RD); [eapply map_entries; eauto|eapply map_entries; eauto|apply (l_addd _ _ _ _ _ _ _ _ _ _ _ L)].
        intros a b Hab. apply LS; auto. apply (l_mul _ _ _ _ _ _ _ _ _ _ _ L); auto. apply (l_time _ _ _ _ _ _ _ _ _ _ _ L); auto. } intros a a' _ _ Ha.
      eapply so_bind. { apply bc2_so with (R := RD) (S := RD) (T := RD); [exact Ha| |apply (l_addd _ _ _ _ _ _ _ _ _ _ _ L)].
        apply (amapi_entries _ _ _ _ RD RD) with (1 := Hd). intros k n u w Hab. apply LS; auto. apply (l_noise _ _ _ _ _ _ _ _ _ _ _ L); auto. } intros xt xt' _ _ Hxt.
      eapply so_bind; [eapply solve_all_so; eauto|]. intros w w' _ _ Hw.
      eapply so_bind. { apply iop2_so with (R := RV) (S := RD); [exact Hx|exact Hw|exact Hsubp]. } intros x1 x1' _ _ Hx1. cbn [same_outcome]. split; cbn [fst snd]; auto.
      apply r_x; [apply r_drift; auto|auto].
    Qed.
  End Dc.

  Section Hyper.
    Variables (S : surface (K := K) (V := V)) (S' : surface (K := K) (V := V')).
    Hypothesis Hsubp : forall u u' w w', RV u u' -> RD w w' -> RV (c_vsub c u w) (c_vsub c' u' w').
    Hypothesis Hscp : forall a u u', Ft a -> RV u u' -> RD (c_vscale c a u) (c_vscale c' a u').
    Hypothesis Htan : forall x x' u u', RV x x' -> RD u u' -> RD (h_tan S x u) (h_tan S' x' u').
    Hypothesis Hproj : forall x x', RV x x' -> RV (h_proj S x) (h_proj S' x').
    Hypothesis Hnc : forall dt sg x x' u u', Ft dt -> Fs sg -> RV x x' -> RD u u' -> RD (h_nc S dt sg x u) (h_nc S' dt sg x' u').
    Lemma hyper_frame : forall o s y s2 y2, hyper_inner S c o s y = Ok (s2, y2) -> same_setting s s2.
    Proof.
      intros o s y s2 y2 H. unfold hyper_inner in H. apply bind_ok in H. destruct H as (s1 & H1 & H). cbv zeta in H. do 7 (apply bind_ok in H; destruct H as (? & _ & H)).
      injection H as <- <-. exact (consensus_setting _ _ H1).
    Qed.
    Lemma hyper_so : forall o o' s s' (y y' : unit), orel RZ o o' -> srel s s' -> live (s_cidx s) (s_x s) -> finite_pars Fs Ft s -> y' = y ->
      same_outcome (both srel (fun a b => b = a)) (hyper_inner S c o s y) (hyper_inner S' c' o' s' y').
    Proof.
      intros o o' s s' y y' [Ho _] H HL FP Hy. unfold hyper_inner. eapply so_bind; [exact (consensus_so _ _ _ _ _ _ _ _ _ _ _ L s s' H HL)|]. intros s1 s1' E1 _ H1.
      destruct (consensus_setting _ _ E1) as (_ & _ & F1 & F2 & F3). eapply so_bind; [exact (the_cons_so _ _ H1)|]. intros cp cp' _ _ Hc.
      rewrite (rl_dt _ _ _ _ _ _ _ H1), (rl_sigma _ _ _ _ _ _ _ H1), F2, F3.
      destruct FP as (FP1 & FP2 & FP3). pose proof (l_scale _ _ _ _ _ _ _ _ _ _ _ L) as LS. pose proof (rl_x _ _ _ _ _ _ _ H1) as Hx. cbv zeta.
      eapply so_bind. { apply bc2_so with (T := RD) (1 := Hx) (2 := Hc). apply (l_sub _ _ _ _ _ _ _ _ _ _ _ L). } intros d d' _ _ Hd.
      eapply so_bind. { apply bc2_so with (R := RD) (S := RD) (T := RD); [eapply map_entries; eauto| |apply (l_addd _ _ _ _ _ _ _ _ _ _ _ L)].
        apply (amapi_entries _ _ _ _ RD RD) with (1 := Hd). intros k n u w Hab. apply LS; auto. apply (l_noise _ _ _ _ _ _ _ _ _ _ _ L); auto. } intros a a' _ _ Ha.
      eapply so_bind. { apply bc2_so with (T := RD) (1 := Hx) (2 := Ha). exact Htan. } intros t t' _ _ Ht.
      eapply so_bind. { apply bc2_so with (T := RV) (1 := Hx) (2 := Ht). apply (l_add _ _ _ _ _ _ _ _ _ _ _ L). } intros dn dn' _ _ Hdn.
      eapply so_bind. { apply bc2_so with (T := RD) (1 := Hx) (2 := Hd). intros; apply Hnc; auto. } intros nc nc' _ _ Hn.
      eapply so_bind. { apply bc2_so with (T := RV) (1 := Hdn) (2 := Hn). exact Hsubp. } intros xt xt' _ _ Hxt. cbn [same_outcome]. split; cbn [fst snd]; auto.
      apply r_x; [apply r_drift; auto|]. eapply map_entries; eauto.
    Qed.
  End Hyper.

  Section Reg.
    Context {E : Type} (ER : E -> E -> Prop).
    Variables (obj : arr V -> E -> res (E * arr F)) (obj' : arr V' -> E -> res (E * arr F)).
    Variables (solve : option (F -> V -> V -> res V)) (solve' : option (F -> V' -> V' -> res V')) (eps : F).
    Hypothesis Hsubp : forall u u' w w', RV u u' -> RD w w' -> RV (c_vsub c u w) (c_vsub c' u' w').
    Hypothesis Hobj : forall xs xs' e e', entries RV xs xs' -> ER e e' -> same_outcome (both ER (entries RF)) (obj xs e) (obj' xs' e').
    Hypothesis Hne : forall xs e e' e1 en, ER e e' -> (forall r, In r xs -> r <> []) -> obj xs e = Ok (e1, en) -> forall r, In r en -> r <> [].
    Hypothesis Hsolve : match solve, solve' with
      | None, None => True
      | Some f, Some f' => (forall dt, Ft dt -> Fs (fdiv dt eps)) /\ forall a v v' u u', Fs a -> RV v v' -> RV u u' -> same_outcome RV (f a v u) (f' a v' u')
      | _, _ => False
      end.
    Lemma with_setting : forall s e s1 e1, compute_consensus_with obj c s e = Ok (s1, e1) -> same_setting s s1.
    Proof.
      intros s e s1 e1 H. unfold compute_consensus_with in H. apply bind_ok in H. destruct H as (s0 & H0 & H).
      assert (P : same_setting s s0).
      { unfold maybe_save_points in H0. destruct (c_savepts c); [|injection H0 as <-; repeat split]. destruct (s_cep s).
        - apply bind_ok in H0. destruct H0 as (? & _ & H0). apply bind_ok in H0. destruct H0 as (? & _ & H0). injection H0 as <-. repeat split.
        - injection H0 as <-. repeat split. }
      cbv zeta in H. do 5 (apply bind_ok in H; destruct H as (? & _ & H)). injection H as <- <-. exact P.
    Qed.
    Lemma reg_frame : forall o s y s2 y2, reg_inner obj solve eps c o s y = Ok (s2, y2) -> same_setting s s2.
    Proof.
      intros o s y s2 y2 H. unfold reg_inner in H. apply bind_ok in H. destruct H as ([s1 e1] & H1 & H). cbv zeta in H. do 5 (apply bind_ok in H; destruct H as (? & _ & H)).
      injection H as <- <-. exact (with_setting _ _ _ _ H1).
    Qed.
    Lemma with_so : forall s s' e e', srel s s' -> live (s_cidx s) (s_x s) -> ER e e' ->
      same_outcome (both srel ER) (compute_consensus_with obj c s e) (compute_consensus_with obj' c' s' e').
    Proof.
      intros s s' e e' H HL He. unfold compute_consensus_with. eapply so_bind; [exact (points_so _ _ _ _ _ _ _ _ _ _ _ L s s' H)|]. intros s0 s0' E0 _ H0.
      destruct (points_cidx _ _ _ E0) as [P1 P2]. rewrite <- P1, <- P2 in HL. clear E0 P1 P2 H.
      rewrite (rl_cidx _ _ _ _ _ _ _ H0). eapply so_bind; [eapply gather_so; exact (rl_x _ _ _ _ _ _ _ H0)|]. intros x x' Ex _ Hx.
      eapply so_bind; [exact (Hobj _ _ _ _ Hx He)|]. intros [e1 en] [e1' en'] Eo _ [He1 Hen]. cbn [fst snd] in *. cbv zeta.
      assert (H1 : srel (set_fcalls (s_fcalls s0 + npoints x) (set_nfe (add_at (s_active s0) (shape1 x) (s_nfe s0)) s0))
                        (set_fcalls (s_fcalls s0' + npoints x') (set_nfe (add_at (s_active s0') (shape1 x') (s_nfe s0')) s0'))).
      { rewrite (npoints_so _ _ _ _ _ Hx), (shape1_so _ _ _ _ _ Hx), (rl_fcalls _ _ _ _ _ _ _ H0), (rl_active _ _ _ _ _ _ _ H0), (rl_nfe _ _ _ _ _ _ _ H0). apply r_fcalls; auto. apply r_nfe; auto. }
      revert H1. generalize (set_fcalls (s_fcalls s0 + npoints x) (set_nfe (add_at (s_active s0) (shape1 x) (s_nfe s0)) s0)) (set_fcalls (s_fcalls s0' + npoints x') (set_nfe (add_at (s_active s0') (shape1 x') (s_nfe s0')) s0')).
      intros s1 s1' H1. rewrite (rl_active _ _ _ _ _ _ _ H1). eapply so_bind; [eapply takeM_so; exact (rl_alpha _ _ _ _ _ _ _ H1)|]. intros al al' _ _ Ha.
      pose proof (Hne x e e' e1 en He (fun r Hr => HL _ _ Ex Hr) Eo) as Hn. eapply so_bind; [eapply (cc_so _ _ _ _ _ _ _ _ _ _ _ L); eauto|].
      intros cp cp' _ _ Hcp. rewrite (rl_cidx _ _ _ _ _ _ _ H1). eapply so_bind; [eapply scatter_so; [exact (rl_energy _ _ _ _ _ _ _ H1)|eapply entries_impl; [apply (l_fin _ _ _ _ _ _ _ _ _ _ _ L)|exact Hen]]|].
      intros en2 en2' _ _ Hen2. cbn [same_outcome]. split; cbn [fst snd]; auto. apply r_energy; auto. apply r_cons; auto.
    Qed.
    Lemma reg_so : forall o o' s s' e e', orel RZ o o' -> srel s s' -> live (s_cidx s) (s_x s) -> finite_pars Fs Ft s -> ER e e' ->
      same_outcome (both srel ER) (reg_inner obj solve eps c o s e) (reg_inner obj' solve' eps c' o' s' e').
    Proof.
      intros o o' s s' e e' [Ho _] H HL FP He. unfold reg_inner. eapply so_bind; [exact (with_so s s' e e' H HL He)|]. intros [s1 e1] [s1' e1'] E1 _ [H1 He1]. cbn [fst snd] in *.
      destruct (with_setting _ _ _ _ E1) as (_ & _ & F1 & F2 & F3). eapply so_bind; [exact (the_cons_so _ _ H1)|]. intros cp cp' _ _ Hc.
      rewrite (rl_lamda _ _ _ _ _ _ _ H1), (rl_dt _ _ _ _ _ _ _ H1), (rl_sigma _ _ _ _ _ _ _ H1), F1, F2, F3.
      destruct FP as (FP1 & FP2 & FP3). pose proof (l_scale _ _ _ _ _ _ _ _ _ _ _ L) as LS. pose proof (rl_x _ _ _ _ _ _ _ H1) as Hx. cbv zeta.
      eapply so_bind. { apply bc2_so with (T := RD) (1 := Hx) (2 := Hc). apply (l_sub _ _ _ _ _ _ _ _ _ _ _ L). } intros d d' _ _ Hd.
      eapply so_bind. { apply bc2_so with (R := RV) (S := RD) (T := RV); [exact Hx|eapply map_entries; eauto|exact Hsubp].
        intros a b Hab. apply LS; auto. apply (l_mul _ _ _ _ _ _ _ _ _ _ _ L); auto. apply (l_time _ _ _ _ _ _ _ _ _ _ _ L); auto. } intros a a' _ _ Ha.
      eapply so_bind. { apply bc2_so with (R := RV) (S := RD) (T := RV); [exact Ha| |apply (l_add _ _ _ _ _ _ _ _ _ _ _ L)].
        apply (amapi_entries _ _ _ _ RD RD) with (1 := Hd). intros k n u w Hab. apply LS; auto. apply (l_noise _ _ _ _ _ _ _ _ _ _ _ L); auto. } intros xt xt' _ _ Hxt.
      eapply so_bind with (R := entries RV).
      { destruct solve as [f|], solve' as [f'|]; try contradiction; [|exact Hxt]. destruct Hsolve as [S1 S2]. eapply solve_all_so; [exact Hx|exact Hxt|]. auto. }
      intros x1 x1' _ _ Hx1. cbn [same_outcome]. split; cbn [fst snd]; auto. apply r_x; [apply r_drift; auto|auto].
    Qed.
  End Reg.
End SimVar.
