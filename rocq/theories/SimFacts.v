(** * Related dynamics stay related *)
From Coq Require Import String List Arith Bool Lia.
From Verif Require Import Scalar Np NpFacts State Pdyn PdynFacts PdynOk Memory SimSpec SimNp.
Import ListNotations.
Open Scope nat_scope.
Open Scope list_scope.

Section Sim.
  Context {K V V' : Type} {O : KOps K}.
  Notation F := (fl K).
  Variables (RV RD RZ : V -> V' -> Prop) (RE RF RA RU : F -> F -> Prop) (Fs Ft : F -> Prop).
  Variables (c : cfg K V) (c' : cfg K V').
  Notation srel := (state_related RV RD RE RA RU).

  Definition corr_related (k k' : corr K) : Prop :=
    match k, k' with
    | NoCorr, NoCorr => True
    | Heavi fac, Heavi fac' => forall a a' b b', RE a a' -> RF b b' -> Fs (fac (fsub a b)) /\ fac' (fsub a' b') = fac (fsub a b)
    | _, _ => False
    end.
  Definition crit_related (k : crit K V) (k' : crit K V') : Prop :=
    match k, k' with
    | CEnergyTol t, CEnergyTol t' => forall e e', RE e e' -> fltb e' t' = fltb e t
    | CDiffTol t, CDiffTol t' => forall u u', RU u u' -> fltb u' t' = fltb u t
    | CMaxEval n, CMaxEval n' => n' = n
    | CMaxIt n, CMaxIt n' => n' = n
    | CMaxTime t, CMaxTime t' => t' = t
    | _, _ => False
    end.

  Record laws : Prop := {
    l_b : c_bsize c' = c_bsize c /\ c_partial c' = c_partial c /\ c_concat c' = c_concat c /\ c_savepts c' = c_savepts c;
    l_fin : forall a a', RF a a' -> RE a a';
    l_lt : forall a a' b b', RE a a' -> RE b b' -> fltb a' b' = fltb a b;
    l_nan : forall a a', RE a a' -> is_nan a' = is_nan a;
    l_inf : RE PInf PInf;
    l_f : forall v v', RV v v' -> RF (c_f c v) (c_f c' v');
    l_sub : forall v v' w w', RV v v' -> RV w w' -> RD (c_vsub c v w) (c_vsub c' v' w');
    l_add : forall v v' w w', RV v v' -> RD w w' -> RV (c_vadd c v w) (c_vadd c' v' w');
    l_addd : forall v v' w w', RD v v' -> RD w w' -> RD (c_vadd c v w) (c_vadd c' v' w');
    l_scale : forall a v v', Fs a -> RD v v' -> RD (c_vscale c a v) (c_vscale c' a v');
    l_time : forall a, Ft a -> Fs a;
    l_noise : forall dt v v' z z', Ft dt -> RD v v' -> RZ z z' -> RD (c_noise c dt v z) (c_noise c' dt v' z');
    l_cc : forall er er' xr xr' a a', er <> [] -> length er = length xr -> Forall2 RF er er' -> Forall2 RV xr xr' -> RA a a' ->
      Forall2 RV (c_ccrow c er xr a) (c_ccrow c' er' xr' a');
    l_pp : forall v v', RV v v' -> RV (c_pp c v) (c_pp c' v');
    l_norm : forall l l', Forall2 RD l l' -> RU (c_norm c l) (c_norm c' l');
    l_uinf : RU PInf PInf;
    l_corr : corr_related (c_corr c) (c_corr c');
    l_crit : Forall2 crit_related (c_crit c) (c_crit c');
    l_mul : forall a b, Fs a -> Fs b -> Fs (fmul a b);
    l_opp : forall a, Fs a -> Fs (fopp a);
    l_01 : Fs (Fin k0) /\ Fs (Fin k1) }.
  Hypothesis L : laws.

  (** ** attribute assignments *)
  Ltac rel := let H := fresh in intros H; intros; destruct H; constructor; sst; auto.
  Lemma r_x : forall s s' v v', srel s s' -> entries RV v v' -> srel (set_x v s) (set_x v' s'). Proof. intros s s' v v'. rel. Qed.
  Lemma r_xold : forall s s' v v', srel s s' -> maybe (entries RV) v v' -> srel (set_xold v s) (set_xold v' s'). Proof. intros s s' v v'. rel. Qed.
  Lemma r_energy : forall s s' v v', srel s s' -> entries RE v v' -> srel (set_energy v s) (set_energy v' s'). Proof. intros s s' v v'. rel. Qed.
  Lemma r_cons : forall s s' v v', srel s s' -> maybe (entries RV) v v' -> srel (set_cons v s) (set_cons v' s'). Proof. intros s s' v v'. rel. Qed.
  Lemma r_drift : forall s s' v v', srel s s' -> maybe (entries RD) v v' -> srel (set_drift v s) (set_drift v' s'). Proof. intros s s' v v'. rel. Qed.
  Lemma r_cep : forall s s' v v', srel s s' -> maybe (entries RV) v v' -> srel (set_cep v s) (set_cep v' s'). Proof. intros s s' v v'. rel. Qed.
  Lemma r_be : forall s s' v v', srel s s' -> Forall2 RE v v' -> srel (set_be v s) (set_be v' s'). Proof. intros s s' v v'. rel. Qed.
  Lemma r_bce : forall s s' v v', srel s s' -> Forall2 RE v v' -> srel (set_bce v s) (set_bce v' s'). Proof. intros s s' v v'. rel. Qed.
  Lemma r_fmin : forall s s' v v', srel s s' -> Forall2 RE v v' -> srel (set_fmin v s) (set_fmin v' s'). Proof. intros s s' v v'. rel. Qed.
  Lemma r_udiff : forall s s' v v', srel s s' -> Forall2 RU v v' -> srel (set_udiff v s) (set_udiff v' s'). Proof. intros s s' v v'. rel. Qed.
  Lemma r_bp : forall s s' v v', srel s s' -> Forall2 RV v v' -> srel (set_bp v s) (set_bp v' s'). Proof. intros s s' v v'. rel. Qed.
  Lemma r_bcp : forall s s' v v', srel s s' -> Forall2 RV v v' -> srel (set_bcp v s) (set_bcp v' s'). Proof. intros s s' v v'. rel. Qed.
  Lemma r_hist : forall s s' v v', srel s s' -> Forall2 (both eq (Forall2 (hist_related RV RD RE RA RU))) v v' -> srel (set_hist v s) (set_hist v' s'). Proof. intros s s' v v'. rel. Qed.
  Lemma r_t : forall s s' v v', srel s s' -> v' = v -> srel (set_t v s) (set_t v' s'). Proof. intros s s' v v'. rel. Qed.
  Lemma r_it : forall s s' v v', srel s s' -> v' = v -> srel (set_it v s) (set_it v' s'). Proof. intros s s' v v'. rel. Qed.
  Lemma r_nfe : forall s s' v v', srel s s' -> v' = v -> srel (set_nfe v s) (set_nfe v' s'). Proof. intros s s' v v'. rel. Qed.
  Lemma r_fcalls : forall s s' v v', srel s s' -> v' = v -> srel (set_fcalls v s) (set_fcalls v' s'). Proof. intros s s' v v'. rel. Qed.
  Lemma r_active : forall s s' v v', srel s s' -> v' = v -> srel (set_active v s) (set_active v' s'). Proof. intros s s' v v'. rel. Qed.
  Lemma r_reason : forall s s' v v', srel s s' -> v' = v -> srel (set_reason v s) (set_reason v' s'). Proof. intros s s' v v'. rel. Qed.
  Lemma r_cidx : forall s s' v v', srel s s' -> v' = v -> srel (set_cidx v s) (set_cidx v' s'). Proof. intros s s' v v'. rel. Qed.
  Lemma r_pidx : forall s s' v v', srel s s' -> v' = v -> srel (set_pidx v s) (set_pidx v' s'). Proof. intros s s' v v'. rel. Qed.
  Lemma r_ind : forall s s' v v', srel s s' -> v' = v -> srel (set_ind v s) (set_ind v' s'). Proof. intros s s' v v'. rel. Qed.
  Lemma r_tracks : forall s s' v v', srel s s' -> v' = v -> srel (set_tracks v s) (set_tracks v' s'). Proof. intros s s' v v'. rel. Qed.
  Lemma r_trackit : forall s s' v v', srel s s' -> v' = v -> srel (set_trackit v s) (set_trackit v' s'). Proof. intros s s' v v'. rel. Qed.
  Lemma r_save : forall s s' v v', srel s s' -> v' = v -> srel (set_save v s) (set_save v' s'). Proof. intros s s' v v'. rel. Qed.

  Definition orel (o : orc V) (o' : orc V') : Prop := (forall k n, RZ (o_z o k n) (o_z o' k n)) /\ o_perm o' = o_perm o.

  (** ** steps *)
  Lemma pre_so : forall o o' s s', orel o o' -> srel s s' -> same_outcome srel (pre_step c o s) (pre_step c' o' s').
  Proof.
    intros o o' s s' [_ Ho] H. destruct (l_b L) as (B1 & B2 & B3 & B4). unfold pre_step.
    assert (H1 : srel (set_xold (Some (s_x s)) s) (set_xold (Some (s_x s')) s')) by (apply r_xold; [exact H|exact (rl_x _ _ _ _ _ _ _ H)]).
    revert H1. generalize (set_xold (Some (s_x s)) s) (set_xold (Some (s_x s')) s'). clear H s s'. intros s s' H.
    unfold set_batch_idx. rewrite B1, (rl_N _ _ _ _ _ _ _ H). destruct (c_bsize c =? s_N s).
    - cbn. unfold set_batch_idx_unbatched. rewrite (rl_active _ _ _ _ _ _ _ H), (rl_M _ _ _ _ _ _ _ H). apply r_pidx; auto. apply r_cidx; auto.
    - unfold set_batch_idx_batched. rewrite B1, B2, B3, Ho, (rl_active _ _ _ _ _ _ _ H), (rl_M _ _ _ _ _ _ _ H), (rl_ind _ _ _ _ _ _ _ H).
      apply so_bind with (R := eq). { destruct (takeM _ _); cbn; auto. }
      intros a b _ _ ->. cbn. apply r_pidx; auto. apply r_cidx; auto. apply r_ind; auto.
  Qed.

  Lemma eval_so : forall xs xs' s s', entries RV xs xs' -> srel s s' ->
    entries RF (fst (eval_f c xs s)) (fst (eval_f c' xs' s')) /\ srel (snd (eval_f c xs s)) (snd (eval_f c' xs' s')).
  Proof.
    intros xs xs' s s' Hx H. split; cbn.
    - eapply map_entries; eauto. apply L.
    - rewrite (npoints_so _ _ _ _ _ Hx), (shape1_so _ _ _ _ _ Hx), (rl_fcalls _ _ _ _ _ _ _ H), (rl_active _ _ _ _ _ _ _ H), (rl_nfe _ _ _ _ _ _ _ H).
      apply r_fcalls; auto. apply r_nfe; auto.
  Qed.

  Lemma cc_so : forall e e' xs xs' al al', entries RF e e' -> entries RV xs xs' -> entries RA al al' -> (forall r, In r e -> r <> []) ->
    same_outcome (entries RV) (cc_call c e xs al) (cc_call c' e' xs' al').
  Proof.
    intros e e' xs xs' al al' He Hx Ha Hne. unfold cc_call. eapply so_bind; [eapply bpairs_so; eauto|]. intros ea ea' Hea _ Hr.
    eapply so_bind; [eapply bpairs_so; eauto|]. intros rows rows' Hro _ Hrr. eapply mapM_so; [exact Hrr|].
    intros [[er ar] xr] [[er' ar'] xr'] Hin [[H1 H2] H3]. cbn in H1, H2, H3.
    assert (Her : er <> []).
    { apply Hne. assert (G : forall A B (l : list A) (m : list B) ps p, bpairs l m = Ok ps -> In p ps -> In (fst p) l).
      { intros A B l m ps [p q] Hp Hi. unfold bpairs in Hp. destruct (length l =? length m). { injection Hp as <-. apply in_combine_l in Hi. auto. }
        destruct l as [|a [|a2 l]]; [destruct m as [|? [|]]; try discriminate|injection Hp as <-|destruct m as [|? [|]]; try discriminate].
        - injection Hp as <-. destruct Hi.
        - apply in_map_iff in Hi. destruct Hi as (y & [= <- <-] & _). cbn; auto.
        - injection Hp as <-. apply (in_map fst) in Hi. cbn [fst] in *. change (In p (map fst (map (fun a : A => (a, b)) (a :: a2 :: l)))) in Hi.
          rewrite map_map, map_id in Hi. auto. }
      pose proof (G _ _ _ _ _ _ Hro Hin) as G1. exact (G _ _ _ _ _ _ Hea G1). }
    destruct H2 as [|a a' ? ? Haa [|]]; cbn; auto. rewrite (F2_length _ _ _ _ _ H1), (F2_length _ _ _ _ _ H3).
    destruct (length er =? length xr) eqn:El.
    - cbn. apply Nat.eqb_eq in El. apply (l_cc L); auto.
    - destruct H3 as [|v v' ? ? Hv [|]]; cbn; auto. apply (l_cc L); auto. rewrite repeat_length; auto. apply F2_repeat; auto.
  Qed.

  Lemma points_so : forall s s', srel s s' -> same_outcome srel (maybe_save_points c s) (maybe_save_points c' s').
  Proof.
    intros s s' H. unfold maybe_save_points. destruct (l_b L) as (_ & _ & _ & ->). destruct (c_savepts c); [|exact H].
    pose proof (rl_cep _ _ _ _ _ _ _ H) as Hc. destruct (s_cep s), (s_cep s'); cbn in Hc; try contradiction.
    - rewrite (rl_cidx _ _ _ _ _ _ _ H). eapply so_bind; [eapply gather_so; exact (rl_x _ _ _ _ _ _ _ H)|]. intros x x' _ _ Hx.
      eapply so_bind; [eapply scatter_so; eauto|]. intros y y' _ _ Hy. cbn. apply r_cep; auto.
    - cbn. apply r_cep; auto. cbn. exact (rl_x _ _ _ _ _ _ _ H).
  Qed.
  Lemma points_cidx : forall s s0, maybe_save_points c s = Ok s0 -> s_cidx s0 = s_cidx s /\ s_x s0 = s_x s.
  Proof.
    intros s s0 H. unfold maybe_save_points in H. destruct (c_savepts c); [|injection H as <-; auto]. destruct (s_cep s).
    - apply bind_ok in H. destruct H as (? & _ & H). apply bind_ok in H. destruct H as (? & _ & H). injection H as <-. auto.
    - injection H as <-. auto.
  Qed.

  (** no run of the batch is empty *)
  Definition live {A} (i : idx) (X : arr A) : Prop := forall Y r, gather i X = Ok Y -> In r Y -> r <> [].

  Lemma consensus_so : forall s s', srel s s' -> live (s_cidx s) (s_x s) -> same_outcome srel (compute_consensus c s) (compute_consensus c' s').
  Proof.
    intros s s' H HL. unfold compute_consensus. eapply so_bind; [exact (points_so s s' H)|]. intros s0 s0' E0 _ H0.
    destruct (points_cidx _ _ E0) as [P1 P2]. rewrite <- P1, <- P2 in HL. clear E0 P1 P2 H.
    rewrite (rl_cidx _ _ _ _ _ _ _ H0). eapply so_bind; [eapply gather_so; exact (rl_x _ _ _ _ _ _ _ H0)|]. intros x x' Ex _ Hx.
    destruct (eval_so x x' s0 s0' Hx H0) as [He H1]. destruct (eval_f c x s0) as [e s1] eqn:Ee. destruct (eval_f c' x' s0') as [e' s1']. cbn [fst snd] in *.
    rewrite (rl_active _ _ _ _ _ _ _ H1). eapply so_bind; [eapply takeM_so; exact (rl_alpha _ _ _ _ _ _ _ H1)|]. intros al al' _ _ Ha.
    eapply so_bind; [eapply cc_so; eauto|].
    { injection Ee as <- <-. intros r Hr. apply in_map_iff in Hr. destruct Hr as (r0 & <- & Hr0). intros E. apply map_eq_nil in E. exact (HL _ _ Ex Hr0 E). }
    intros cp cp' _ _ Hcp. rewrite (rl_cidx _ _ _ _ _ _ _ H1). eapply so_bind; [eapply scatter_so; [exact (rl_energy _ _ _ _ _ _ _ H1)|eapply entries_impl; [apply (l_fin L)|exact He]]|].
    intros en en' _ _ Hen. cbn. apply r_energy; auto. apply r_cons; auto.
  Qed.

  Lemma correction_so : forall cp cp' dr dr' s s', srel s s' -> entries RV cp cp' -> entries RD dr dr' ->
    same_outcome (both (entries RD) srel) (correction c cp dr s) (correction c' cp' dr' s').
  Proof.
    intros cp cp' dr dr' s s' H Hc Hd. unfold correction. pose proof (l_corr L) as LC. destruct (c_corr c) as [|fac], (c_corr c') as [|fac']; cbn in LC; try contradiction.
    - cbn. split; auto.
    - rewrite (npoints_so _ _ _ _ _ Hc), (rl_fcalls _ _ _ _ _ _ _ H), (rl_nfe _ _ _ _ _ _ _ H), (F2_length _ _ _ _ _ Hc).
      assert (H1 : srel (set_fcalls (s_fcalls s + npoints cp) (set_nfe (map (fun n => n + length cp) (s_nfe s)) s))
                        (set_fcalls (s_fcalls s + npoints cp) (set_nfe (map (fun n => n + length cp) (s_nfe s)) s'))) by (apply r_fcalls; auto; apply r_nfe; auto).
      eapply so_bind. { apply bc2_so with (R := RE) (S := RF) (T := fun z z' => Fs (fac z) /\ fac' z' = fac z); [exact (rl_energy _ _ _ _ _ _ _ H1)|eapply map_entries; eauto; apply L|]. intros; apply LC; auto. }
      intros z z' _ _ Hz. eapply so_bind. { apply bc2_so with (T := RD) (1 := Hd) (2 := Hz). intros a b w w' Hab [Hw1 Hw2]. rewrite Hw2. apply (l_scale L); auto. }
      intros a b _ _ Hab. cbn. split; auto.
  Qed.

  (** the parameters one update multiplies with *)
  Definition finite_pars (s : st K V) : Prop := Fs (s_lamda s) /\ Ft (s_dt s) /\ Fs (s_sigma s).

  Lemma update_so : forall v v' la dt sg n n', RD v v' -> RD n n' -> Fs la -> Fs dt -> Fs sg -> RD (cbo_update c v la dt sg n) (cbo_update c' v' la dt sg n').
  Proof.
    intros. unfold cbo_update. apply (l_addd L); apply (l_scale L); auto. apply (l_mul L); auto. apply (l_opp L); auto.
  Qed.

  Lemma consensus_frame : forall s s1, compute_consensus c s = Ok s1 -> s_lamda s1 = s_lamda s /\ s_dt s1 = s_dt s /\ s_sigma s1 = s_sigma s /\ s_pidx s1 = s_pidx s /\ s_x s1 = s_x s.
  Proof.
    intros s s1 H. unfold compute_consensus in H. apply bind_ok in H. destruct H as (s0 & H0 & H).
    assert (P : s_lamda s0 = s_lamda s /\ s_dt s0 = s_dt s /\ s_sigma s0 = s_sigma s /\ s_pidx s0 = s_pidx s /\ s_x s0 = s_x s).
    { unfold maybe_save_points in H0. destruct (c_savepts c); [|injection H0 as <-; auto]. destruct (s_cep s).
      - apply bind_ok in H0. destruct H0 as (? & _ & H0). apply bind_ok in H0. destruct H0 as (? & _ & H0). injection H0 as <-. repeat split.
      - injection H0 as <-. repeat split. }
    apply bind_ok in H. destruct H as (xs & _ & H). unfold eval_f in H. apply bind_ok in H. destruct H as (? & _ & H). apply bind_ok in H. destruct H as (? & _ & H).
    apply bind_ok in H. destruct H as (? & _ & H). injection H as <-. exact P.
  Qed.
  Lemma correction_frame : forall cp dr s d s2, correction c cp dr s = Ok (d, s2) -> s_lamda s2 = s_lamda s /\ s_dt s2 = s_dt s /\ s_sigma s2 = s_sigma s.
  Proof.
    intros cp dr s d s2 H. unfold correction in H. destruct (c_corr c). { injection H as <- <-. auto. }
    apply bind_ok in H. destruct H as (? & _ & H). apply bind_ok in H. destruct H as (? & _ & H). injection H as <- <-. repeat split.
  Qed.

  Theorem cbo_step_so : forall o o' s s', orel o o' -> srel s s' -> live (s_cidx s) (s_x s) -> finite_pars s ->
    same_outcome srel (cbo_step c o s) (cbo_step c' o' s').
  Proof.
    intros o o' s s' [Ho _] H HL FP. unfold cbo_step. eapply so_bind; [exact (consensus_so s s' H HL)|]. intros s1 s1' E1 _ H1.
    destruct (consensus_frame _ _ E1) as (F1 & F2 & F3 & _). pose proof (rl_cons _ _ _ _ _ _ _ H1) as Hc.
    destruct (s_cons s1) as [cp|], (s_cons s1') as [cp'|]; cbn in Hc; try contradiction; [|reflexivity].
    rewrite (rl_pidx _ _ _ _ _ _ _ H1). eapply so_bind; [eapply gather_so; exact (rl_x _ _ _ _ _ _ _ H1)|]. intros x x' _ _ Hx.
    eapply so_bind. { apply bc2_so with (T := RD) (1 := Hx) (2 := Hc). apply (l_sub L). } intros d0 d0' _ _ Hd0.
    eapply so_bind; [exact (correction_so _ _ _ _ _ _ H1 Hc Hd0)|]. intros [d s2] [d' s2'] E2 _ [Hd H2]. cbn in Hd, H2.
    destruct (correction_frame _ _ _ _ _ E2) as (G1 & G2 & G3). destruct FP as (FP1 & FP2 & FP3).
    eapply so_bind. { apply iop2_so with (R := RV) (S := RD); [exact Hx| |apply (l_add L)].
      rewrite (rl_lamda _ _ _ _ _ _ _ H2), (rl_dt _ _ _ _ _ _ _ H2), (rl_sigma _ _ _ _ _ _ _ H2), G1, G2, G3, F1, F2, F3.
      apply (amapi_entries _ _ _ _ RD RD) with (1 := Hd). intros k n a b Hab. apply update_so; auto; [apply (l_noise L); auto|apply (l_time L); auto]. }
    intros x1 x1' _ _ Hx1. rewrite (rl_pidx _ _ _ _ _ _ _ H2). eapply so_bind; [eapply scatter_so; [exact (rl_x _ _ _ _ _ _ _ H2)|exact Hx1]|].
    intros x2 x2' _ _ Hx2. cbn. apply r_x; auto. apply r_drift; auto.
  Qed.

  Lemma argmin_so : forall l l', Forall2 RE l l' -> same_outcome (both eq RE) (argmin l) (argmin l').
  Proof.
    assert (G : forall l l', Forall2 RE l l' -> forall i bi a a', RE a a' -> both eq RE (argmin_from i bi a l) (argmin_from i bi a' l')).
    { intros l l' H. induction H as [|x y l l' Hxy H IH]; intros i bi a a' Ha; cbn. { split; auto. }
      rewrite (l_nan L _ _ Ha), (l_nan L _ _ Hxy), (l_lt L _ _ _ _ Hxy Ha). destruct (is_nan a); [split; auto|]. destruct (is_nan x); [split; auto|]. destruct (fltb x a); apply IH; auto. }
    intros l l' [|a a' l0 l0' Ha H]; cbn; auto.
  Qed.
  Lemma F2_fst : forall A B C (R : B -> C -> Prop) (l : list (A * B)) l', Forall2 (both eq R) l l' -> map fst l' = map fst l.
  Proof. intros. eapply F2_map_eq; eauto. intros a b [E _]. auto. Qed.
  Lemma F2_snd : forall A B C (R : B -> C -> Prop) (l : list (A * B)) l', Forall2 (both eq R) l l' -> Forall2 R (map snd l) (map snd l').
  Proof. intros. eapply F2_map; eauto. intros a b [_ E]. auto. Qed.

  (** the common part of the two versions of update_best_cur_particle *)
  Lemma best_cur_so : forall (X : arr V) (X' : arr V') s s', srel s s' -> entries RV X X' ->
    same_outcome srel
      (am <- mapM argmin (s_energy s) ;; p <- pick X (map fst am) ;; e <- pick (s_energy s) (map fst am) ;; Ok (set_bce e (set_bcp p (set_fmin (map snd am) s))))
      (am <- mapM argmin (s_energy s') ;; p <- pick X' (map fst am) ;; e <- pick (s_energy s') (map fst am) ;; Ok (set_bce e (set_bcp p (set_fmin (map snd am) s')))).
  Proof.
    intros X X' s s' H HX. eapply so_bind. { eapply mapM_so; [exact (rl_energy _ _ _ _ _ _ _ H)|]. intros a b _ Hab. apply argmin_so; auto. }
    intros am am' _ _ Ham. rewrite (F2_fst _ _ _ _ _ _ Ham). eapply so_bind; [eapply pick_so; exact HX|]. intros p p' _ _ Hp.
    eapply so_bind; [eapply pick_so; exact (rl_energy _ _ _ _ _ _ _ H)|]. intros e e' _ _ He. cbn. apply r_bce; auto. apply r_bcp; auto. apply r_fmin; auto. eapply F2_snd; eauto.
  Qed.

  Lemma update_best_so : forall s s', srel s s' -> srel (update_best s) (update_best s').
  Proof.
    intros s s' H. unfold update_best.
    replace (map2 (fun be bce => fltb bce be) (s_be s') (s_bce s')) with (map2 (fun be bce => fltb bce be) (s_be s) (s_bce s)).
    2:{ symmetry. eapply F2_map2_eq; [exact (rl_be _ _ _ _ _ _ _ H)|exact (rl_bce _ _ _ _ _ _ _ H)|]. intros. apply (l_lt L); auto. }
    apply r_bp; [apply r_be; auto|]; apply select_so; apply H.
  Qed.

  (** ** history *)
  Notation hrel := (hist_related RV RD RE RA RU).
  Notation Hrel := (Forall2 (both eq (Forall2 hrel))).
  Lemma hist_get_so : forall k h h', Hrel h h' -> maybe (Forall2 hrel) (hist_get k h) (hist_get k h').
  Proof. intros k h h' H. induction H as [|[a x] [b y] h h' [Hab Hxy] H IH]; cbn in *; auto. subst b. destruct (String.eqb k a); auto. Qed.
  Lemma hist_set_so : forall k h h' v v', Hrel h h' -> Forall2 hrel v v' -> Hrel (hist_set k v h) (hist_set k v' h').
  Proof.
    intros k h h' v v' H Hv. induction H as [|[a x] [b y] h h' [Hab Hxy] H IH]; cbn in *. { constructor; auto. split; auto. }
    subst b. destruct (String.eqb k a); constructor; auto; split; auto.
  Qed.
  Lemma append_so : forall k v v' s s', srel s s' -> hrel v v' -> same_outcome srel (hist_append k v s) (hist_append k v' s').
  Proof.
    intros k v v' s s' H Hv. unfold hist_append. pose proof (hist_get_so k _ _ (rl_hist _ _ _ _ _ _ _ H)) as G.
    destruct (hist_get k (s_hist s)), (hist_get k (s_hist s')); cbn in G; try contradiction; [|reflexivity].
    cbn. apply r_hist; auto. apply hist_set_so; [exact (rl_hist _ _ _ _ _ _ _ H)|]. apply Forall2_app; auto.
  Qed.
  Lemma attr_so : forall n s s', srel s s' -> maybe hrel (attr_of n s) (attr_of n s').
  Proof.
    intros n s s' H. unfold attr_of. repeat (match goal with |- context [String.eqb ?a ?b] => destruct (String.eqb a b) end; [cbn; first [exact (rl_alpha _ _ _ _ _ _ _ H)|exact (rl_bp _ _ _ _ _ _ _ H)|right; exact (rl_be _ _ _ _ _ _ _ H)|right; exact (rl_fmin _ _ _ _ _ _ _ H)|exact (rl_t _ _ _ _ _ _ _ H)|exact (rl_it _ _ _ _ _ _ _ H)|exact (rl_nfe _ _ _ _ _ _ _ H)|exact (rl_dt _ _ _ _ _ _ _ H)|exact (rl_sigma _ _ _ _ _ _ _ H)]|]).
    exact I.
  Qed.
  Lemma trk_so : forall t s s', srel s s' -> same_outcome (both eq srel) (trk_update c t s) (trk_update c' t s').
  Proof.
    intros t s s' H. destruct t as [| | | | | |n []]; cbn [trk_update];
      try (eapply so_bind; [apply append_so; [exact H|]|intros a b _ _ Hab; cbn; split; auto]).
    - exact (rl_x _ _ _ _ _ _ _ H).
    - left. exact (rl_udiff _ _ _ _ _ _ _ H).
    - exact (rl_energy _ _ _ _ _ _ _ H).
    - exact (rl_cons _ _ _ _ _ _ _ H).
    - pose proof (rl_drift _ _ _ _ _ _ _ H) as Hd. destruct (s_drift s) as [dr|], (s_drift s') as [dr'|]; cbn in Hd; try contradiction; [|reflexivity].
      eapply so_bind; [apply append_so; [exact H|]|intros a b _ _ Hab; cbn; split; auto]. cbn. rewrite !map_length. eapply F2_length; eauto.
    - eapply so_bind; [apply append_so; [exact H|exact (rl_drift _ _ _ _ _ _ _ H)]|]. intros a b Ea Eb Hab.
      eapply so_bind; [apply append_so; [exact Hab|]|intros a1 b1 _ _ Hab1; cbn; split; auto]. cbn. exact (rl_pidx _ _ _ _ _ _ _ H).
    - pose proof (attr_so n s s' H) as Ha. destruct (attr_of n s), (attr_of n s'); cbn in Ha; try contradiction.
      + eapply so_bind; [apply append_so; [exact H|exact Ha]|intros a b _ _ Hab; cbn; split; auto].
      + cbn. split; auto.
    - cbn. split; auto.
  Qed.
  Lemma trks_so : forall ts s s', srel s s' -> same_outcome (both eq srel) (trks_update c ts s) (trks_update c' ts s').
  Proof.
    induction ts as [|t ts IH]; intros s s' H; cbn [trks_update]. { cbn. split; auto. }
    eapply so_bind; [exact (trk_so t s s' H)|]. intros p q _ _ [P1 P2]. eapply so_bind; [exact (IH _ _ P2)|]. intros p2 q2 _ _ [P3 P4]. cbn. split; cbn; congruence || auto.
  Qed.
  Lemma track_so : forall s s', srel s s' -> same_outcome srel (track c s) (track c' s').
  Proof.
    intros s s' H. unfold track. rewrite (rl_save _ _ _ _ _ _ _ H), (rl_it _ _ _ _ _ _ _ H), (rl_tracks _ _ _ _ _ _ _ H). destruct (s_save s); [reflexivity|].
    destruct (_ =? 0); [|exact H]. eapply so_bind; [exact (trks_so _ s s' H)|]. intros [ts s1] [ts' s1'] _ _ [P1 P2]. cbn [fst snd] in *.
    cbn [same_outcome fst snd]. rewrite (rl_trackit _ _ _ _ _ _ _ H). apply r_trackit; auto. apply r_tracks; auto.
  Qed.
  Lemma trk_init_so : forall t s s', srel s s' -> srel (trk_init t s) (trk_init t s').
  Proof.
    intros t s s' H. pose proof (rl_hist _ _ _ _ _ _ _ H) as HH. destruct t; cbn [trk_init]; apply r_hist; auto; repeat apply hist_set_so; auto.
    constructor; auto. exact (rl_x _ _ _ _ _ _ _ H).
  Qed.
  Lemma init_history_so : forall names extra save s s', srel s s' -> srel (init_history names extra save s) (init_history names extra save s').
  Proof.
    intros names extra save s s' H. unfold init_history. generalize (match names with Some l => l | None => ["update_norm"%string; "energy"%string] end). intros nm.
    set (ts := extra ++ map known_track nm).
    assert (H1 : srel (set_trackit 0 (set_tracks ts (set_hist [] (set_save (match save with Some k => k | None => 1 end) s))))
                      (set_trackit 0 (set_tracks ts (set_hist [] (set_save (match save with Some k => k | None => 1 end) s'))))).
    { apply r_trackit; auto. apply r_tracks; auto. apply r_hist; auto. apply r_save; auto. }
    revert H1. generalize (set_trackit 0 (set_tracks ts (set_hist [] (set_save (match save with Some k => k | None => 1 end) s)))).
    generalize (set_trackit 0 (set_tracks ts (set_hist [] (set_save (match save with Some k => k | None => 1 end) s')))).
    induction ts as [|t ts IH]; intros s1' s1 H1; cbn; auto. apply IH. apply trk_init_so; auto.
  Qed.

  (** ** post_step *)
  (** the state post_step hands to update_best_cur_particle *)
  Definition projected (k : cfg K V) (s : st K V) : st K V :=
    let s1 := set_x (map (map (c_pp k)) (s_x s)) s in
    match s_xold s1 with Some xo => set_udiff (map2 (fun r ro => c_norm k (map2 (c_vsub k) r ro)) (s_x s1) xo) s1 | None => s1 end.
  Definition projected' (k : cfg K V') (s : st K V') : st K V' :=
    let s1 := set_x (map (map (c_pp k)) (s_x s)) s in
    match s_xold s1 with Some xo => set_udiff (map2 (fun r ro => c_norm k (map2 (c_vsub k) r ro)) (s_x s1) xo) s1 | None => s1 end.
  Lemma projected_so : forall s s', srel s s' -> srel (projected c s) (projected' c' s').
  Proof.
    intros s s' H. unfold projected, projected'. cbv zeta.
    assert (H1 : srel (set_x (map (map (c_pp c)) (s_x s)) s) (set_x (map (map (c_pp c')) (s_x s')) s')).
    { apply r_x; auto. eapply map_entries; [exact (rl_x _ _ _ _ _ _ _ H)|]. apply L. }
    revert H1. generalize (set_x (map (map (c_pp c)) (s_x s)) s) (set_x (map (map (c_pp c')) (s_x s')) s'). clear H s s'. intros s s' H.
    pose proof (rl_xold _ _ _ _ _ _ _ H) as Ho. destruct (s_xold s), (s_xold s'); cbn in Ho; try contradiction; auto.
    apply r_udiff; auto. eapply F2_map2; [exact (rl_x _ _ _ _ _ _ _ H)|exact Ho|]. intros r r' q q' H1 H2. apply (l_norm L). eapply F2_map2; eauto. apply (l_sub L).
  Qed.
  Lemma finish_so : forall s s', srel s s' ->
    same_outcome srel (s5 <- track c (update_best s) ;; Ok (set_it (S (s_it s5)) (set_t (fadd (s_t s5) (s_dt s5)) s5)))
      (s5 <- track c' (update_best s') ;; Ok (set_it (S (s_it s5)) (set_t (fadd (s_t s5) (s_dt s5)) s5))).
  Proof.
    intros s s' H. eapply so_bind; [apply track_so; apply update_best_so; exact H|]. intros a b _ _ Hab. cbn [same_outcome].
    rewrite (rl_it _ _ _ _ _ _ _ Hab), (rl_t _ _ _ _ _ _ _ Hab), (rl_dt _ _ _ _ _ _ _ Hab). apply r_it; auto. apply r_t; auto.
  Qed.
  Theorem post_so : forall s s', srel s s' -> same_outcome srel (post_step c s) (post_step c' s').
  Proof.
    intros s s' H. unfold post_step. cbv zeta. fold (projected c s). fold (projected' c' s'). pose proof (projected_so s s' H) as P.
    eapply so_bind; [|intros a b _ _ Hab; exact (finish_so a b Hab)]. unfold update_best_cur. apply best_cur_so; auto.
    pose proof (rl_xold _ _ _ _ _ _ _ P) as Ho. destruct (s_xold (projected c s)), (s_xold (projected' c' s')); cbn in Ho; try contradiction; auto.
    exact (rl_x _ _ _ _ _ _ _ P).
  Qed.

  (** ** termination *)
  Lemma crit_so : forall k k' s s', crit_related k k' -> srel s s' -> crit_eval c' k' s' = crit_eval c k s.
  Proof.
    intros k k' s s' Hk H. destruct (l_b L) as (B1 & _). destruct k as [t|t|n|[n|]|t|g], k' as [t'|t'|n'|n'|t'|g']; cbn in Hk; try contradiction; subst; cbn [crit_eval].
    - eapply F2_map_eq; [exact (rl_fmin _ _ _ _ _ _ _ H)|]. auto.
    - eapply F2_map_eq; [exact (rl_udiff _ _ _ _ _ _ _ H)|]. auto.
    - rewrite B1, (rl_nfe _ _ _ _ _ _ _ H). auto.
    - rewrite (rl_it _ _ _ _ _ _ _ H), (rl_M _ _ _ _ _ _ _ H). auto.
    - rewrite (rl_M _ _ _ _ _ _ _ H). auto.
    - rewrite (rl_t _ _ _ _ _ _ _ H), (rl_M _ _ _ _ _ _ _ H). auto.
  Qed.
  Theorem terminate_so : forall s s', srel s s' -> same_outcome (both eq srel) (terminate c s) (terminate c' s').
  Proof.
    intros s s' H. unfold terminate. apply so_bind with (R := srel).
    - unfold select_active_runs. apply so_bind with (R := eq).
      + rewrite (rl_M _ _ _ _ _ _ _ H). apply so_mono with (R := Forall2 eq). { intros a b Hab. symmetry. apply F2_eq. auto. }
        eapply mapM_so; [exact (l_crit L)|]. intros k k' _ Hk. rewrite (crit_so k k' s s' Hk H). destruct (bto _ _); cbn; auto.
      + intros a b _ _ <-. cbn. rewrite (rl_M _ _ _ _ _ _ _ H), (rl_reason _ _ _ _ _ _ _ H). apply r_reason; auto. apply r_active; auto.
    - intros a b _ _ Hab. cbn. split; cbn; [rewrite (rl_active _ _ _ _ _ _ _ Hab); auto|auto].
  Qed.

  (** ** construction *)
  Theorem init_so : forall x0 x0' checked alpha alpha' sigma lamda dt perm0 names extra save, entries RV x0 x0' -> RA alpha alpha' ->
    same_outcome srel (init c x0 checked alpha sigma lamda dt perm0 names extra save) (init c' x0' checked alpha' sigma lamda dt perm0 names extra save).
  Proof.
    intros x0 x0' checked alpha alpha' sigma lamda dt perm0 names extra save Hx Ha. destruct (l_b L) as (B1 & _). unfold init. cbv zeta.
    rewrite (shape1_so _ _ _ _ _ Hx), (F2_length _ _ _ _ _ Hx), B1. eapply so_bind. { eapply mapM_so; [exact Hx|]. intros a b _ Hab. apply take1_so; exact Hab. }
    intros bp bp' _ _ Hbp. cbn [same_outcome]. apply init_history_so. constructor; cbn; auto.
    - apply F2_repeat. apply F2_repeat. apply (l_inf L).
    - apply F2_repeat. constructor; auto.
    - apply F2_repeat. apply (l_inf L).
    - apply F2_repeat. apply (l_inf L).
    - apply F2_repeat. apply (l_inf L).
    - apply F2_repeat. apply (l_uinf L).
  Qed.
End Sim.
