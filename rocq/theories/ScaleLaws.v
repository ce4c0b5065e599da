(** * Sessions in other units of length and energy *)
From Coq Require Import String List Arith Bool Reals Permutation Lia Lra.
From Verif Require Import Scalar Np NpFacts State Pdyn PdynFacts PdynOk Exec TermSpec RVec RVecFacts Consensus ConsSpec ConsFacts PostProc Cbo CboSpec CboFacts AbsorbFacts
  TwinSpec TwinFacts SymFacts UnitsSpec UnitsSym Memory MemSpec SimSpec SimNp SimFacts MemSymSpec SimMem SessSpec SimCbo SymLaws ScaleSpec.
Import ListNotations.
Open Scope R_scope.

Section Scaled.
  Variables (f f' : vec -> fl R) (k : noise_model) (pp pp' : vec -> vec) (co co' : corr R) (b : nat) (partial cat : bool) (ks : list (crit R vec)) (save : bool).
  Variables (d : nat) (len en : R).
  Notation c := (cbo_cfg f k pp co b partial cat ks save).
  Notation c' := (cbo_cfg f' k pp' co' b partial cat (map (scale_crit len en) ks) save).
  Hypothesis Hlen : 0 < len.
  Hypothesis Hen : 0 < en.
  Hypothesis Hks : Forall builtin ks.
  Hypothesis Hco : finite_corr co.
  Hypothesis Hcc : scale_corr en co co'.
  Hypothesis Hf : finite_obj d f.
  Hypothesis Hff : forall p, length p = d -> f' (floats (vscal len p)) = times_by en (f (floats p)).
  Hypothesis Hpp : forall p, length p = d -> exists q, pp (floats p) = floats q /\ length q = d /\ pp' (floats (vscal len p)) = floats (vscal len q).

  Definition zscal (z : list R) : list R := match k with NConst => vscal len z | _ => z end.
  Definition escal (e e' : fl R) : Prop := e' = times_by en e /\ e <> NaN.
  Definition fscal (e e' : fl R) : Prop := exists r, e = Fin r /\ e' = Fin (en * r).
  Definition ascal (a a' : fl R) : Prop := a' = times_by (/ en) a /\ finite_scalar a.
  Definition uscal (u u' : fl R) : Prop := u' = times_by len u.
  Notation pimg := (img d (vscal len)).
  Notation zimg := (img d zscal).

  Lemma F2_fscal : forall l l', Forall2 fscal l l' -> exists P, l = map Fin P /\ l' = map (times_by en) l.
  Proof. intros l l' H. induction H as [|v v' l l' (p & -> & ->) H (P & -> & ->)]. { exists []. cbn. auto. } exists (p :: P). cbn. auto. Qed.
  Lemma vadd_scal : forall x y, length x = length y -> vadd (vscal len x) (vscal len y) = vscal len (vadd x y).
  Proof.
    intros x y H. apply (coord_ext _ _ (length y)); [apply length_vadd; rewrite length_vscal; auto|rewrite length_vscal; apply length_vadd; auto|].
    intros i Hi. rewrite coord_vscal, !coord_vadd, !coord_vscal by (rewrite ?length_vscal; auto). ring.
  Qed.
  Lemma vscal_comm : forall a x, vscal a (vscal len x) = vscal len (vscal a x).
  Proof. intros a x. unfold vscal. rewrite !map_map. apply map_ext. intros y. ring. Qed.
  Lemma noise_scal : forall t u z, length u = d -> length z = d -> rnoise k t (vscal len u) (zscal z) = vscal len (rnoise k t u z).
  Proof.
    intros t u z Lu Lz. unfold rnoise, zscal. destruct k.
    - apply vscal_comm.
    - apply (coord_ext _ _ d); rewrite ?length_vscal; auto. intros i Hi. rewrite !coord_vscal, vnorm_scal, Rabs_pos_eq by lra. ring.
    - apply (coord_ext _ _ d); rewrite ?length_vscal, ?map2_length, ?length_vscal; try lia. intros i Hi. rewrite !coord_vscal.
      assert (M2 : forall v, length v = d -> coord i (map2 Rmult z v) = coord i z * coord i v).
      { intros v Hv. unfold coord. clear - Hv Lz Hi. revert v d i Lz Hv Hi. induction z as [|z0 z1 IH]; intros [|v0 v1] [|n] [|i] Lz Hv Hi; cbn in *; auto; try lia. apply (IH v1 n i); lia. }
      rewrite !M2 by (rewrite ?length_vscal; auto). rewrite coord_vscal. ring.
  Qed.
  Lemma norm_scal : forall P, uscal (fdiv (fnorm (concat (map floats P))) (Fin (INR (length (map floats P))))) (fdiv (fnorm (concat (map floats (map (vscal len) P)))) (Fin (INR (length (map floats (map (vscal len) P)))))).
  Proof.
    intros P. unfold uscal. rewrite !fnorm_concat, !map_length.
    assert (EQ : Rsum (map sqnorm (map (vscal len) P)) = len * len * Rsum (map sqnorm P)).
    { clear. induction P as [|p P IH]; cbn [map]; rewrite ?Rsum_cons; [cbn; ring|]. rewrite IH, <- !vnorm_sq, vnorm_scal. rewrite Rmult_plus_distr_l. f_equal.
      replace (Rabs len * vnorm p * (Rabs len * vnorm p)) with ((Rabs len * Rabs len) * (vnorm p * vnorm p)) by ring. f_equal. rewrite <- Rabs_mult. apply Rabs_pos_eq. nra. }
    assert (S0 : 0 <= Rsum (map sqnorm P)) by (apply Rsum_nonneg; intros q Hq; apply in_map_iff in Hq; destruct Hq as (w & <- & _); apply sqnorm_nonneg).
    rewrite EQ, sqrt_mult, sqrt_square by nra. set (r := sqrt _). set (nn := INR _).
    unfold times_by. cbn [fdiv]. destruct (k_is0 nn) eqn:E0; cbn [fmul]; [|unfold Rdiv; cbn; f_equal; unfold Rdiv; ring].
    change (kmul len r) with (len * r). destruct (Rle_lt_or_eq_dec 0 r (sqrt_pos _)) as [Hr|Hr].
    - rewrite !inf_pos by nra. rewrite ?inf_pos by lra. reflexivity.
    - rewrite <- Hr, Rmult_0_r. assert (Z : inf_sign 0 true = NaN) by (unfold inf_sign; cbn; unfold Rltb; destruct (Rlt_dec 0 0); [lra|auto]). rewrite Z. reflexivity.
  Qed.
  Lemma crit_scal : Forall2 (crit_related escal uscal) ks (map (scale_crit len en) ks).
  Proof.
    assert (G : forall q : crit R vec, builtin q -> crit_related escal uscal q (scale_crit len en q)).
    { intros [t|t|n|n|t|gg] Hq; cbn in *; auto. - intros e e' [-> _]. apply times_lt; auto. - intros u u' ->. apply times_lt; auto. }
    rewrite Forall_forall in Hks. induction ks as [|q l IH]; cbn; constructor; [apply G; apply Hks; cbn; auto|apply IH; intros; apply Hks; cbn; auto].
  Qed.

  Theorem scale_laws : laws pimg pimg zimg escal fscal ascal uscal finite_scalar time_step c c'.
  Proof.
    constructor; cbn [cbo_cfg c_bsize c_partial c_concat c_savepts c_f c_vadd c_vsub c_vscale c_norm c_ccrow c_noise c_pp c_corr c_crit].
    - auto.
    - intros a a' (r & -> & ->). split; [reflexivity|discriminate].
    - intros a a' b0 b' [-> _] [-> _]. apply times_lt; auto.
    - intros a a' [-> _]. apply times_nan; auto.
    - split; [symmetry; apply times_inf; auto|discriminate].
    - intros v v' (p & Lp & -> & ->). rewrite Hff by auto. destruct (Hf p Lp) as [r ->]. exists r. auto.
    - intros v v' w w' (p & Lp & -> & ->) (q & Lq & -> & ->). exists (vsub p q). rewrite !floats_sub, vsub_scal by congruence. split; [apply length_vsub; auto|auto].
    - intros v v' w w' (p & Lp & -> & ->) (q & Lq & -> & ->). exists (vadd p q). rewrite !floats_add, vadd_scal by congruence. split; [apply length_vadd; auto|auto].
    - intros v v' w w' (p & Lp & -> & ->) (q & Lq & -> & ->). exists (vadd p q). rewrite !floats_add, vadd_scal by congruence. split; [apply length_vadd; auto|auto].
    - intros a v v' [r ->] (p & Lp & -> & ->). exists (vscal r p). rewrite length_vscal, !floats_scal, vscal_comm. auto.
    - intros a (r & -> & _). exists r. auto.
    - intros dt v v' z z' (r & -> & Hr) (p & Lp & -> & ->) (q & Lq & -> & ->). exists (rnoise k r p q). rewrite !noise_floats, noise_scal by auto. split; [apply length_rnoise; auto|auto].
    - intros er er' xr xr' a a' Hne Hlen' He Hx [-> [r ->]]. destruct (F2_fscal _ _ He) as (E & -> & ->). destruct (F2_img _ _ _ _ Hx) as (P & HP & -> & ->).
      rewrite !map_length in Hlen'.
      assert (AD : admissible r (map Fin E)).
      { split; [intros e Hin; apply in_map_iff in Hin; destruct Hin as (x & <- & _); eauto|]. destruct E as [|x E]; [exfalso; apply Hne; reflexivity|]. exists x. cbn; auto. }
      assert (EN : ensemble (length (map Fin E)) d P) by (split; auto; rewrite map_length; auto).
      assert (EN' : ensemble (length (map (times_by en) (map Fin E))) d (map (vscal len) P)).
      { split; [rewrite !map_length; auto|]. intros q Hq. apply in_map_iff in Hq. destruct Hq as (q' & <- & Hq'). rewrite length_vscal. auto. }
      change (times_by (/ en) (Fin r)) with (Fin (/ en * r)).
      rewrite (consensus_gibbs r _ d), (consensus_gibbs (/ en * r) _ d) by (auto; apply admissible_times; auto). rewrite gibbs_point_times by auto.
      constructor; [|constructor]. eexists. split; [|split; reflexivity]. apply gibbs_point_length.
    - intros v v' (p & Lp & -> & ->). destruct (Hpp p Lp) as (q & H1 & H2 & H3). exists q. auto.
    - intros l l' H. destruct (F2_img _ _ _ _ H) as (P & HP & -> & ->). apply norm_scal.
    - unfold uscal. symmetry. apply times_inf. auto.
    - destruct co as [|fac], co' as [|fac']; cbn in *; auto. intros a a' e e' [-> Ha] (r & -> & ->).
      assert (E : fsub (times_by en a) (Fin (en * r)) = times_by en (fsub a (Fin r))).
      { destruct a; unfold times_by; cbn [fmul fsub fopp fadd]; rewrite ?inf_pos by auto; cbn; rewrite ?inf_pos by auto; auto. f_equal. ring. }
      assert (NN : fsub a (Fin r) <> NaN) by (destruct a; cbn; congruence). rewrite E. split; [apply Hco; exact NN|apply Hcc; exact NN].
    - apply crit_scal.
    - intros a b0 [x ->] [y ->]. eexists. reflexivity.
    - intros a [x ->]. eexists. reflexivity.
    - split; eexists; reflexivity.
  Qed.

  Lemma scale_min : forall a a' e e', fscal a a' -> fscal e e' -> fscal (fmin a e) (fmin a' e').
  Proof.
    intros a a' e e' (r & -> & ->) (q & -> & ->). unfold fmin. cbn. unfold Rltb. destruct (Rlt_dec q r), (Rlt_dec (en * q) (en * r)); try (exfalso; nra); eexists; split; reflexivity.
  Qed.
  Lemma scale_zero : forall v v', pimg v v' -> pimg (c_vscale c (Fin k0) v) (c_vscale c' (Fin k0) v').
  Proof.
    intros v v' (p & Lp & -> & ->). exists (vscal 0 p). rewrite length_vscal. split; auto. cbn [cbo_cfg c_vscale].
    change (Fin k0) with (Fin (0 : R)). rewrite !floats_scal, vscal_comm. auto.
  Qed.

  Lemma img_points : forall v v', pimg v v' -> real_point d v /\ v' = map (times_by len) v.
  Proof. intros v v' (p & Lp & -> & ->). split; [exists p; auto|symmetry; apply times_points]. Qed.
  Lemma img_draw : forall z, real_point d z -> zimg z (scale_draw k len z).
  Proof. intros z (p & -> & Lp). exists p. split; auto. split; auto. unfold scale_draw, zscal. destruct k; auto. apply times_points. Qed.
  Lemma srel_scaled : forall s s', state_related pimg pimg escal ascal uscal s s' -> scaled len en d s s'.
  Proof.
    intros s s' H. eapply related_impl; [..|exact H]; auto; try (apply img_points).
    - intros e e' [-> _]. auto.
    - intros e e' [-> _]. auto.
  Qed.
  Lemma calls_scaled : forall M N l, sensible_calls d M N l -> cbo_calls_related zimg ascal finite_scalar time_step M N l (map (scale_call k len en) l).
  Proof.
    intros M N l. induction l as [|a l IH]; intros HC; cbn; auto.
    destruct a as [o| |al sg la dt'|]; cbn in HC |- *; auto.
    - destruct HC as (H1 & H2 & HC). split; [split; auto; cbn; intros; apply img_draw; auto|]. split; auto.
    - destruct HC as ((H1 & H2 & H3 & H4) & HC). split; [split; auto|]. do 3 (split; [auto|]). auto.
  Qed.

  (** whole sessions of CBO *)
  Theorem scale_cbo : forall x0 checked alpha sigma lamda dt perm0 names extra sv l, sensible d b x0 alpha sigma lamda dt perm0 sv ->
    sensible_calls d (length x0) (shape1 x0) l ->
    same_outcome (scaled len en d) (cbo_session c x0 checked alpha sigma lamda dt perm0 names extra sv l)
      (cbo_session c' (map (map (map (times_by len))) x0) checked (times_by (/ en) alpha) sigma lamda dt perm0 names extra sv (map (scale_call k len en) l)).
  Proof.
    intros x0 checked alpha sigma lamda dt perm0 names extra sv l (S1 & S2 & S3 & S4 & S5 & S6 & S7 & S8 & S9 & S10) HC.
    eapply so_mono; [|eapply (cbo_session_so _ _ _ _ _ _ _ _ _ _ _ scale_laws); eauto].
    - apply srel_scaled.
    - apply entries_img; auto. intros. apply times_points.
    - split; auto.
    - apply calls_scaled. auto.
  Qed.
  (** ... of CBOMemory and PSO *)
  Theorem scale_mem : forall kd x0 checked alpha sigma lamda dt perm0 names extra sv l, sensible d b x0 alpha sigma lamda dt perm0 sv ->
    finite_calls kd d (length x0) (shape1 x0) dt l ->
    same_outcome (scaled_memory len en d) (mem_session kd c x0 checked alpha sigma lamda dt perm0 names extra sv l)
      (mem_session kd c' (map (map (map (times_by len))) x0) checked (times_by (/ en) alpha) sigma lamda dt perm0 names extra sv (map (scale_mcall k len en) l)).
  Proof.
    intros kd x0 checked alpha sigma lamda dt perm0 names extra sv l (S1 & S2 & S3 & S4 & S5 & S6 & S7 & S8 & S9 & S10) HC.
    eapply so_mono; [|eapply (mem_session_so _ _ _ _ _ _ _ _ _ _ _ scale_laws scale_min scale_zero); eauto].
    - intros ms ms' [M1 M2 M3 M4 M5]. split; [apply srel_scaled; auto|]. split; [|split]; eapply entries_eq; eauto; intros; apply times_points.
    - apply entries_img; auto. intros. apply times_points.
    - split; auto.
    - assert (HT : finite_scalar dt) by (destruct S10 as (r & -> & _); exists r; auto). clear - HC HT. revert dt HC HT. induction l as [|a l IH]; intros dt HC HT; cbn; auto.
      destruct a as [p o z2| |al sg la dt'|]; cbn in HC |- *; auto.
      + destruct HC as ((lm & sm & mm & ga & -> & Hm) & H1 & H2 & H3 & HC). split; auto. split; [split; auto; cbn; intros; apply img_draw; auto|]. split; [intros; apply img_draw; auto|].
        split; [|split; auto]. unfold finite_mpar. cbn. split; [exists lm; auto|]. split; [exists sm; auto|]. intros Hk. split; [exists mm; auto|]. destruct HT as (t & ->). specialize (Hm Hk t eq_refl).
        cbn. unfold k_is0. cbn. unfold Rltb. destruct (Rlt_dec (mm + ga * t) 0); [eexists; reflexivity|]. destruct (Rlt_dec 0 (mm + ga * t)); [eexists; reflexivity|]. exfalso. lra.
      + destruct HC as ((H1 & H2 & H3 & H4) & HC). split; [split; auto|]. do 3 (split; [auto|]). split; auto. split; auto. split; auto. apply IH; auto. destruct H4 as (r & -> & _); exists r; auto.
  Qed.
End Scaled.
