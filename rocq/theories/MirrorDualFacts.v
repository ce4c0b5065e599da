(** * The dual points of MirrorCBO: recorded history and changes from outside *)
From Coq Require Import String List Arith Bool Lia.
From Verif Require Import Scalar ScalarFacts Np NpFacts State Pdyn PdynFacts PdynStep PdynRun Exec PdynOk MemSpec MemFacts3 StepFrame HistSpec HistFacts
  Variant VarSpec VarFacts VarMove VarExactSpec VarExact Resampling ResampSpec ResampApply MirrorDual MirrorDualSpec.
Import ListNotations.
Open Scope string_scope.
Open Scope nat_scope.
Open Scope list_scope.

Section Facts.
  Context {K V : Type} {O : KOps K}.
  Notation F := (fl K).
  Notation st := (st K V).
  Notation cfg := (cfg K V).
  Notation orc := (orc V).

  Lemma set_x_wf : forall (c : cfg) (s : st) x, wf c s -> rect (s_M s) (s_N s) x -> wf c (set_x x s).
  Proof. intros c s x W R. destruct W. destruct s. cbn in *. constructor; sst; auto. Qed.

  Lemma resample_frame : forall (c : cfg) var amp z idx (s : st) y s' y', wf c s -> rect (s_M s) (s_N s) y ->
    mirror_resample c var amp z idx (s, y) = Ok (s', y') ->
    exists x1, s' = set_x x1 s /\ rect (s_M s) (s_N s) x1 /\ rect (s_M s) (s_N s) y'.
  Proof.
    intros c var amp z idx s y s' y' W R H. unfold mirror_resample, add_noise in H. cbn [fst snd] in H. destruct var.
    - apply bind_ok in H. destruct H as (x1 & E & H). injection H as <- <-. apply bind_ok in E. destruct E as (rows & _ & E).
      cbv zeta in E. apply bind_ok in E. destruct E as (new & _ & E). exists x1. split; auto. split; auto.
      eapply scatter_shape; eauto. apply W.
    - apply bind_ok in H. destruct H as (y1 & E & H). injection H as <- <-. apply bind_ok in E. destruct E as (rows & _ & E).
      cbv zeta in E. apply bind_ok in E. destruct E as (new & _ & E). exists (s_x s). split; [destruct s; auto|]. split; [apply W|].
      eapply scatter_shape; eauto.
  Qed.

  Lemma tstep_inv : forall gc (c : cfg) o s y hy s' y' hy', mirror_tstep gc c o ((s, y), hy) = Ok ((s', y'), hy') ->
    vstep (mirror_inner gc) c o (s, y) = Ok (s', y') /\ hy' = (if s_it s mod s_save s =? 0 then hy ++ [y'] else hy).
  Proof.
    intros gc c o s y hy s' y' hy' H. unfold mirror_tstep in H. cbn [fst snd] in H. apply bind_ok in H. destruct H as ([s1 y1] & E & H).
    cbv zeta in H. cbn [fst snd] in H. injection H as <- <- <-. auto.
  Qed.

  Lemma msess_wf : forall gc gr (c : cfg) s0 l s y hy, constructed c s0 -> msess gc gr c s0 l s y hy ->
    wf c s /\ rect (s_M s) (s_N s) y.
  Proof.
    intros gc gr c s0 l s y hy HC H. induction H.
    - pose proof (constructed_wf _ _ HC) as W. split; auto. apply (attr_mirror gr c); auto.
    - destruct IHmsess as [W R]. apply tstep_inv in H2. destruct H2 as [E _].
      destruct (vstep_good _ _ _ (mirror_regular gc) c o s y s' y' I W (perms_valid_ok _ _ H0) H1 R E) as [GS R'].
      destruct GS as (W' & (EM & EN & _) & _). rewrite EM, EN. auto.
    - destruct IHmsess as [W R]. split; [eapply terminate_wf; eauto|].
      apply terminate_char in H0. destruct H0 as (act & reason & -> & _). sst. auto.
    - destruct IHmsess as [W R]. split; [eapply params_wf; eauto|]. destruct H0 as (al & sg & la & d & _ & ->). sst. auto.
    - destruct IHmsess as [W R]. destruct (resample_frame _ _ _ _ _ _ _ _ _ W R H0) as (x1 & -> & R1 & R2).
      split; [apply set_x_wf; auto|]. sst. auto.
    - destruct IHmsess as [W R]. split; [apply set_x_wf; auto; apply is_array_rect; auto|]. sst. apply is_array_rect; auto.
  Qed.

  (** ** tracking in a step of MirrorCBO *)
  Lemma mirror_inner_frame : forall gc (c : cfg) (o : orc) (s : st) y s' y', mirror_inner gc c o s y = Ok (s', y') ->
    exists x d cep e cp fc nf,
      s' = set_x x (set_drift (Some d) (set_energy e (set_cons (Some cp) (set_fcalls fc (set_nfe nf (set_cep cep s)))))).
  Proof.
    unfold mirror_inner; intros gc c o s y s' y' H. apply bind_ok in H. destruct H as (s1 & E1 & H).
    apply compute_consensus_frame in E1. destruct E1 as (cep & e & cp & fc & nf & ->). sstall.
    apply bind_ok in H. destruct H as (cpt & _ & H). apply bind_ok in H. destruct H as (xp & _ & H).
    apply bind_ok in H. destruct H as (d0 & _ & H). apply bind_ok in H. destruct H as ([d s3] & Hc & H).
    apply correction_ok in Hc. destruct Hc as (fc' & nf' & -> & _).
    apply bind_ok in H. destruct H as (yp & _ & H). apply bind_ok in H. destruct H as (yp' & _ & H).
    apply bind_ok in H. destruct H as (y2 & _ & H). injection H as <- <-.
    exists (map (map gc) y2), d, cep, e, cp, fc', nf'. destruct s; reflexivity.
  Qed.

  Lemma mirror_track_input : forall gc (c : cfg) (o : orc) s y s' y', vstep (mirror_inner gc) c o (s, y) = Ok (s', y') ->
    exists q s5 d tt, track c q = Ok s5 /\ s' = set_it (S (s_it s)) (set_t tt s5) /\ s_it q = s_it s /\ s_save q = s_save s /\
      s_tracks q = s_tracks s /\ s_hist q = s_hist s /\ s_t q = s_t s /\ s_drift q = Some d.
  Proof.
    intros gc c o s y s' y' HS. apply vstep_inv in HS. destruct HS as (s1 & s2 & E1 & E2 & E3).
    apply pre_step_frame in E1. destruct E1 as (ci & pi & ind & xo & ->).
    apply mirror_inner_frame in E2. destruct E2 as (x & d & cep & e & cp & fc & nf & ->).
    apply post_step_frame in E3. destruct E3 as (x' & ud & fm & bcp & bce & be & bp & s5 & Et & ->).
    eexists _, s5, d, _. split; [exact Et|]. destruct s. repeat split.
  Qed.

  Lemma mstep_track : forall gc (c : cfg) (o : orc) s y s' y', vstep (mirror_inner gc) c o (s, y) = Ok (s', y') ->
    s_drift s' <> None /\ s_it s' = S (s_it s) /\ s_save s' = s_save s /\
    ((s_it s mod s_save s =? 0) = true ->
      Forall2 (fun t t' => exists q : st, t' = next_trk t q) (s_tracks s) (s_tracks s') /\
      forall k l, hist_get k (s_hist s) = Some l ->
        hist_get k (s_hist s') = Some (l ++ flat_map (fun t => appended c t k (set_t (s_t s) (set_it (s_it s) s'))) (s_tracks s))) /\
    ((s_it s mod s_save s =? 0) = false -> s_tracks s' = s_tracks s /\ s_hist s' = s_hist s).
  Proof.
    intros gc c o s y s' y' HS. apply mirror_track_input in HS.
    destruct HS as (q & s5 & d & tt & Et & -> & A1 & A2 & A3 & A4 & A5 & A6).
    rewrite <- A1, <- A2, <- A3, <- A4, <- A5.
    assert (B : s_drift s5 = Some d /\ s_save s5 = s_save q).
    { destruct (track_frame _ _ _ Et) as (ti & ts & h & ->). destruct q. auto. }
    destruct B as [B1 B2]. split; [destruct s5; cbn in *; congruence|]. split; [destruct s5; reflexivity|].
    split; [destruct s5; exact B2|]. split.
    - intros Hm. destruct (track_vals c q s5 (S (s_it q)) tt Et Hm) as [T1 T2]. split; [destruct s5; exact T1|].
      intros k l Hl. rewrite <- (T2 k l Hl). destruct s5; reflexivity.
    - intros Hm. destruct (track_skip c q s5 Et Hm) as [T1 T2]. split; [destruct s5; exact T1|destruct s5; exact T2].
  Qed.

  Theorem mirror_history : forall gc gr (c : cfg) x0 chk al sg la dt perm0 names save s0 l s y hy,
    is_array (length x0) (shape1 x0) x0 -> 1 <= shape1 x0 -> 1 <= c_bsize c <= shape1 x0 ->
    (forall m, m < length x0 -> Permutation.Permutation (perm0 m) (seq 0 (shape1 x0))) ->
    1 <= save -> init c x0 chk al sg la dt perm0 (Some names) [] (Some save) = Ok s0 ->
    NoDup names -> (In "drift" names -> ~ In "particle_idx" names) -> In "x" names ->
    msess gc gr c s0 l s y hy ->
    exists hx, hist_get "x" (s_hist s) = Some (HX x0 :: hx) /\ length hx = length hy /\ length hy = (length l + save - 1) / save /\
      forall k a b, nth_error l (k * save) = Some (a, b) ->
        nth_error hx k = Some (HX a) /\ nth_error hy k = Some b /\ a = map (map (fun v => c_pp c (gc v))) b.
  Proof.
    intros gc gr c x0 chk al sg la dt perm0 names save s0 l s y hy Hx HN Hb Hp Hs H Hd Hdr Hin R.
    assert (HC : constructed c s0).
    { exists x0, chk, al, sg, la, dt, perm0, (Some names), [], (Some save). repeat split; auto; try apply Hx; try lia.
      intros E. injection E as ->. lia. }
    assert (Inv : s_it s = length l /\ s_save s = save /\ Forall2 trk_for names (s_tracks s) /\
      hist_get "x" (s_hist s) = Some (HX x0 :: map (fun p => HX (fst p)) (sampled save l)) /\ hy = map snd (sampled save l) /\
      Forall (fun p => fst p = map (map (fun v => c_pp c (gc v))) (snd p)) l).
    { induction R.
      - unfold init in H. apply bind_ok in H. destruct H as (bp & _ & H). injection H as E0.
        unfold init_history in E0. cbv zeta in E0. cbn [app] in E0.
        match type of E0 with fold_left _ _ ?q = _ => destruct (fold_init_known names "x" q) as (h & E & Hh) end.
        rewrite E in E0. rewrite <- E0. sstall. split; auto. split; auto. split.
        { clear. induction names; cbn; constructor; auto. left; auto. }
        split; [|split; [reflexivity|constructor]]. rewrite Hh by auto. reflexivity.
      - destruct IHR as (I1 & I2 & I3 & I4 & I5 & I6).
        destruct (msess_wf _ _ _ _ _ _ _ _ HC R) as [W Ry].
        apply tstep_inv in H2. destruct H2 as [E Eh].
        pose proof (proj1 (mirror_step_char gc c o s y s' y' W (perms_valid_ok _ _ H0) Ry E)) as Ex.
        destruct (mstep_track _ _ _ _ _ _ _ E) as (Dr & T1 & T2 & T3 & T4).
        split. { rewrite T1, app_length, I1. cbn. lia. }
        split; [congruence|]. rewrite sampled_snoc. rewrite <- I1, <- I2.
        rewrite Eh. destruct (s_it s mod s_save s =? 0) eqn:Em.
        + destruct (T3 eq_refl) as [Ht Hh]. split.
          { clear - I3 Ht. revert Ht. generalize (s_tracks s'). induction I3; intros ts' Ht; inversion Ht; subst; constructor; auto.
            match goal with X : exists q, _ |- _ => destruct X as [q ->] end. apply next_trk_for. auto. }
          rewrite (Hh _ _ I4). rewrite I2, !map_app, <- I5. cbn [map fst snd].
          destruct (flat_names c names (s_tracks s) "x" (set_t (s_t s) (set_it (s_it s) s')) I3 Hd Hdr Hin) as (t & Tf & Et).
          rewrite Et. rewrite (trk_for_appended c "x" t s s'); auto.
          split; [reflexivity|]. split; [reflexivity|]. apply Forall_app. split; auto.
        + destruct (T4 eq_refl) as [-> ->]. split; auto. rewrite app_nil_r, I2. split; auto. split; auto. apply Forall_app. split; auto.
      - destruct IHR as (I1 & I2 & I3 & I4 & I5 & I6). apply terminate_char in H0. destruct H0 as (act & re & -> & _). sst. auto 10.
      - destruct IHR as (I1 & I2 & I3 & I4 & I5 & I6). destruct H0 as (al' & sg' & la' & d & Hal & ->). sst. auto 10.
      - destruct IHR as (I1 & I2 & I3 & I4 & I5 & I6). destruct (msess_wf _ _ _ _ _ _ _ _ HC R) as [W Ry].
        destruct (resample_frame _ _ _ _ _ _ _ _ _ W Ry H0) as (x1 & -> & R1 & R2). sst. auto 10.
      - destruct IHR as (I1 & I2 & I3 & I4 & I5 & I6). sst. auto 10. }
    destruct Inv as (_ & _ & _ & I4 & I5 & I6). exists (map (fun p => HX (fst p)) (sampled save l)). split; auto.
    split. { rewrite I5, !map_length. auto. }
    split. { rewrite I5, map_length, sampled_length by auto. reflexivity. }
    intros k a b E. rewrite <- sampled_nth in E by auto. rewrite I5.
    split; [exact (map_nth_error (fun p => HX (fst p)) _ _ E)|]. split; [exact (map_nth_error snd _ _ E)|].
    rewrite sampled_nth in E by auto. apply nth_error_In in E. rewrite Forall_forall in I6. exact (I6 _ E).
  Qed.

  (** ** one step after any changes *)
  Theorem dual_move : forall gc gr (c : cfg) s0 l s y hy o s' y' hy', one_consensus_point c -> c_corr c = NoCorr -> constructed c s0 ->
    msess gc gr c s0 l s y hy -> perms_valid o s -> mirror_tstep gc c o ((s, y), hy) = Ok ((s', y'), hy') ->
    forall k m i v yv, nth_error (s_active s) k = Some m -> cell (s_x s) m i = Some v -> cell y m i = Some yv ->
      exists yv', cell y' m i = Some yv' /\ cell (s_x s') m i = Some (c_pp c (gc yv')) /\
        match last_index i (run_selp c o s m) with
        | None => yv' = yv
        | Some j => exists cp, own_consensus c o s m cp /\
            yv' = c_vadd c yv (c_vadd c (c_vscale c (fmul (fopp (s_lamda s)) (s_dt s)) (c_vsub c v cp)) (kick c s v cp (o_z o k j)))
        end.
  Proof.
    intros gc gr c s0 l s y hy o s' y' hy' C1 NC HC H P HS. destruct (msess_wf _ _ _ _ _ _ _ _ HC H) as [W Ry].
    apply tstep_inv in HS. exact (mirror_move_wf gc c s y o s' y' C1 NC W Ry (perms_valid_ok _ _ P) (proj1 HS)).
  Qed.

  Theorem dual_only : forall gc gr (c : cfg) s0 l s y hy o s' y' hy', constructed c s0 ->
    msess gc gr c s0 l s y hy -> perms_valid o s -> mirror_tstep gc c o ((s, y), hy) = Ok ((s', y'), hy') ->
    s_x s' = map (map (fun v => c_pp c (gc v))) y' /\
    forall m, ~ In m (s_active s) -> nth_error y' m = nth_error y m /\
      nth_error (s_x s') m = option_map (map (fun v => c_pp c (gc v))) (nth_error y m).
  Proof.
    intros gc gr c s0 l s y hy o s' y' hy' HC H P HS. destruct (msess_wf _ _ _ _ _ _ _ _ HC H) as [W Ry].
    apply tstep_inv in HS. destruct (mirror_step_char gc c o s y s' y' W (perms_valid_ok _ _ P) Ry (proj1 HS)) as [E1 E2].
    split; auto. intros m Hm. split; auto. rewrite E1, nth_error_map, (E2 _ Hm). auto.
  Qed.

  Lemma own_consensus_fun : forall (c : cfg) (o : orc) s m a b, own_consensus c o s m a -> own_consensus c o s m b -> a = b.
  Proof.
    intros c o s m a b (xr & al & xb & E1 & E2 & E3 & E4) (xr' & al' & xb' & F1 & F2 & F3 & F4).
    rewrite E1 in F1. injection F1 as <-. rewrite E2 in F2. injection F2 as <-. rewrite E3 in F3. injection F3 as <-. congruence.
  Qed.

  Lemma add_noise_cell : forall (c : cfg) amp z idx (s : st) (a a' : arr V) M, NoDup idx -> rect M (s_N s) a -> (forall m, In m idx -> m < M) ->
    add_noise c amp z idx (s_N s) a = Ok a' ->
    (forall k m i v, nth_error idx k = Some m -> cell a m i = Some v -> cell a' m i = Some (c_vadd c v (c_vscale c amp (z k i)))) /\
    (forall m, ~ In m idx -> nth_error a' m = nth_error a m).
  Proof.
    intros c amp z idx s a a' M ND R L H.
    destruct (apply_default_char c amp z idx (set_x a s) M (s_N s)) as (x' & E & _ & E1 & E2); auto; try (sst; auto; fail).
    unfold apply_default in E. unfold add_noise in H. sstall.
    apply bind_ok in H. destruct H as (rows & Er & H). rewrite Er in E. cbn [bind] in E. cbv zeta in E, H.
    apply bind_ok in H. destruct H as (new & En & H). rewrite En in E. cbn [bind] in E. rewrite H in E. cbn [bind] in E.
    injection E as E. subst x'. split; auto.
    intros k m i v Hk Hv. unfold cell in *. destruct (nth_error a m) as [row|] eqn:Em; [|discriminate].
    rewrite (E2 _ _ _ Hk Em), mapi_nth, Hv. auto.
  Qed.

  Theorem resample_x : forall gc gr (c : cfg) s0 l s y hy amp z idx s' y', constructed c s0 -> msess gc gr c s0 l s y hy ->
    NoDup idx -> (forall m, In m idx -> m < s_M s) -> mirror_resample c VarX amp z idx (s, y) = Ok (s', y') ->
    y' = y /\ (forall k m i v, nth_error idx k = Some m -> cell (s_x s) m i = Some v -> cell (s_x s') m i = Some (c_vadd c v (c_vscale c amp (z k i)))) /\
    (forall m, ~ In m idx -> nth_error (s_x s') m = nth_error (s_x s) m).
  Proof.
    intros gc gr c s0 l s y hy amp z idx s' y' HC H ND L HS. destruct (msess_wf _ _ _ _ _ _ _ _ HC H) as [W Ry].
    unfold mirror_resample in HS. cbn [fst snd] in HS. apply bind_ok in HS. destruct HS as (x1 & E & HS). injection HS as <- <-.
    split; auto. sst. exact (add_noise_cell c amp z idx s _ _ _ ND (w_x _ _ W) L E).
  Qed.

  Theorem resample_y : forall gc gr (c : cfg) s0 l s y hy amp z idx s' y', constructed c s0 -> msess gc gr c s0 l s y hy ->
    NoDup idx -> (forall m, In m idx -> m < s_M s) -> mirror_resample c VarY amp z idx (s, y) = Ok (s', y') ->
    s' = s /\ (forall k m i v, nth_error idx k = Some m -> cell y m i = Some v -> cell y' m i = Some (c_vadd c v (c_vscale c amp (z k i)))) /\
    (forall m, ~ In m idx -> nth_error y' m = nth_error y m).
  Proof.
    intros gc gr c s0 l s y hy amp z idx s' y' HC H ND L HS. destruct (msess_wf _ _ _ _ _ _ _ _ HC H) as [W Ry].
    unfold mirror_resample in HS. cbn [fst snd] in HS. apply bind_ok in HS. destruct HS as (x1 & E & HS). injection HS as <- <-.
    split; auto. exact (add_noise_cell c amp z idx s _ _ _ ND Ry L E).
  Qed.

  (** a resampled dual point keeps its displacement in the next step *)
  Theorem dual_shift : forall gc gr (c : cfg) s0 l s y hy amp z idx sr yr o s1 y1 h1 s2 y2 h2,
    (forall a b w, c_vadd c (c_vadd c a w) b = c_vadd c (c_vadd c a b) w) ->
    one_consensus_point c -> c_corr c = NoCorr -> constructed c s0 -> msess gc gr c s0 l s y hy -> perms_valid o s ->
    NoDup idx -> (forall m, In m idx -> m < s_M s) -> mirror_resample c VarY amp z idx (s, y) = Ok (sr, yr) ->
    mirror_tstep gc c o ((s, y), hy) = Ok ((s1, y1), h1) -> mirror_tstep gc c o ((sr, yr), hy) = Ok ((s2, y2), h2) ->
    forall k m i v, nth_error idx k = Some m -> cell y1 m i = Some v ->
      cell y2 m i = Some (c_vadd c v (c_vscale c amp (z k i))) /\
      cell (s_x s2) m i = Some (c_pp c (gc (c_vadd c v (c_vscale c amp (z k i))))).
  Proof.
    intros gc gr c s0 l s y hy amp z idx sr yr o s1 y1 h1 s2 y2 h2 AC C1 NC HC H P ND L HR H1 H2 k m i v Hk Hv.
    destruct (resample_y _ _ _ _ _ _ _ _ _ _ _ _ _ HC H ND L HR) as (-> & Ry & _).
    assert (Hr : msess gc gr c s0 l s yr hy) by (eapply ms_resample; eauto).
    destruct (msess_wf _ _ _ _ _ _ _ _ HC H) as [W Rcty]. destruct (msess_wf _ _ _ _ _ _ _ _ HC Hr) as [_ Rctr].
    assert (Hm : m < s_M s) by (apply L; eapply nth_error_In; eauto).
    destruct (dual_only _ _ _ _ _ _ _ _ _ _ _ _ HC Hr P H2) as [Ex2 T2].
    assert (G : cell y2 m i = Some (c_vadd c v (c_vscale c amp (z k i)))).
    2:{ split; auto. rewrite Ex2, cell_map, G. auto. }
    destruct (in_dec Nat.eq_dec m (s_active s)) as [Ha|Ha].
    - apply In_nth_error in Ha. destruct Ha as [j Hj].
      destruct (dual_only _ _ _ _ _ _ _ _ _ _ _ _ HC H P H1) as [Ex1 _].
      assert (Ry1 : rect (s_M s) (s_N s) y1).
      { apply tstep_inv in H1. destruct H1 as [E _].
        destruct (vstep_good _ _ _ (mirror_regular gc) c o s y s1 y1 I W (perms_valid_ok _ _ P)) with (3 := E) as [_ R']; auto.
        intros Hn. rewrite Hn in Hj. destruct j; discriminate. }
      assert (Hi : i < s_N s).
      { unfold cell in Hv. destruct (nth_error y1 m) as [row|] eqn:E; [|discriminate]. rewrite <- (proj2 Ry1 _ _ E). eapply nth_error_lt; eauto. }
      destruct (cell_rect _ _ _ _ m i (w_x _ _ W) Hm Hi) as [xv Hx]. destruct (cell_rect _ _ _ _ m i Rcty Hm Hi) as [yv Hy].
      destruct (dual_move _ _ _ _ _ _ _ _ _ _ _ _ C1 NC HC H P H1 _ _ _ _ _ Hj Hx Hy) as (v1 & E1 & _ & F1).
      destruct (dual_move _ _ _ _ _ _ _ _ _ _ _ _ C1 NC HC Hr P H2 _ _ _ _ _ Hj Hx (Ry _ _ _ _ Hk Hy)) as (v2 & E2 & _ & F2).
      rewrite E1 in Hv. injection Hv as ->. rewrite E2. destruct (last_index i (run_selp c o s m)) as [q|].
      + destruct F1 as (cp & O1 & ->). destruct F2 as (cp' & O2 & ->). rewrite (own_consensus_fun _ _ _ _ _ _ O2 O1), AC. auto.
      + subst. auto.
    - destruct (dual_only _ _ _ _ _ _ _ _ _ _ _ _ HC H P H1) as [_ T1]. destruct (T1 _ Ha) as [E1 _]. destruct (T2 _ Ha) as [E2 _].
      unfold cell in *. rewrite E2. rewrite E1 in Hv. apply (Ry _ _ _ _ Hk). exact Hv.
  Qed.
End Facts.
