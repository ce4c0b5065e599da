(** * Sessions of the variants of CBO in other units of length and energy *)
From Coq Require Import String List Arith Bool Reals Permutation Lia Lra.
From Verif Require Import Scalar RFacts Np NpFacts State Pdyn PdynFacts PdynStep PdynOk Exec TermSpec RVec RVecFacts Consensus ConsSpec ConsFacts PostProc Cbo CboSpec CboFacts AbsorbFacts
  TwinSpec TwinFacts SymFacts UnitsSpec UnitsSym Memory MemSpec RegSched RegFacts RegVar Variant VarSpec VarFacts AdamSpec AdamFacts AdamR SimSpec SimNp SimFacts MemSymSpec SimMem SessSpec SimCbo SymLaws VarSessSpec SimVar VarSym
  ScaleSpec ScaleLaws.
Import ListNotations.
Open Scope R_scope.

Section Generic.
  Variables (f f' : vec -> fl R) (k : noise_model) (pp pp' : vec -> vec) (co co' : corr R) (b : nat) (partial cat : bool) (ks : list (crit R vec)) (save : bool).
  Variables (d : nat) (len en : R).
  Notation c := (cbo_cfg f k pp co b partial cat ks save).
  Notation c' := (cbo_cfg f' k pp' co' b partial cat (map (scale_crit len en) ks) save).
  Hypothesis Hlen : 0 < len.
  Hypothesis Hen : 0 < en.
  Hypothesis Hks : Forall builtin ks.
  Hypothesis Hco : finite_corr co.
  Hypothesis Hcc : scale_corr en co co'.
  Hypothesis Hf : finite_obj d f.
  Hypothesis Hff : forall p, length p = d -> f' (floats (vscal len p)) = times_by en (f (floats p)).
  Hypothesis Hpp : forall p, length p = d -> exists q, pp (floats p) = floats q /\ length q = d /\ pp' (floats (vscal len p)) = floats (vscal len q).
  Notation pimg := (img d (vscal len)).
  Notation zimg := (img d (zscal k len)).
  Notation srel := (state_related pimg pimg (escal en) (ascal en) (uscal len)).
  Notation tb := (times_by len).

  Lemma v_laws : laws pimg pimg zimg (escal en) (fscal en) (ascal en) (uscal len) finite_scalar time_step c c'.
  Proof. apply scale_laws; auto. Qed.
  Lemma sub_scaled : forall u u' w w', pimg u u' -> pimg w w' -> pimg (c_vsub c u w) (c_vsub c' u' w').
  Proof.
    intros u u' w w' (p & Lp & -> & ->) (q & Lq & -> & ->). exists (vsub p q). cbn [cbo_cfg c_vsub]. rewrite !floats_sub, vsub_scal by congruence. split; [apply length_vsub; auto|auto].
  Qed.

  (** any variant whose inner step respects the relations *)
  Theorem scale_var : forall (E : Type) (inner inner' : cfg R vec -> orc vec -> st R vec -> E -> res (st R vec * E)) (attr attr' : st R vec -> E)
    (Q : nat -> nat -> E -> Prop) (G : cfg R vec -> Prop) (ER ER' : E -> E -> Prop),
    regular inner Q G -> (forall (c : cfg R vec) (s : st R vec), wf c s -> Q (s_M s) (s_N s) (attr s)) -> G c ->
    (forall o o' s s' e e', orel zimg o o' -> srel s s' -> live (s_cidx s) (s_x s) -> finite_pars finite_scalar time_step s -> ER e e' ->
      same_outcome (both srel ER) (inner c o s e) (inner' c' o' s' e')) ->
    (forall o s e s2 e2, inner c o s e = Ok (s2, e2) -> same_setting s s2) ->
    (forall e e', ER e e' -> ER' e e') ->
    forall x0 checked alpha sigma lamda dt perm0 names extra sv l, sensible d b x0 alpha sigma lamda dt perm0 sv ->
    (forall s s', s_x s = x0 -> s_x s' = map (map (map tb)) x0 -> ER (attr s) (attr' s')) ->
    sensible_calls d (length x0) (shape1 x0) l ->
    same_outcome (both (scaled len en d) ER')
      (var_session inner attr c x0 checked alpha sigma lamda dt perm0 names extra sv l)
      (var_session inner' attr' c' (map (map (map tb)) x0) checked (times_by (/ en) alpha) sigma lamda dt perm0 names extra sv (map (scale_call k len en) l)).
  Proof.
    intros E inner inner' attr attr' Q G ER ER' REG QA HG INS FRM HER x0 checked alpha sigma lamda dt perm0 names extra sv l (S1 & S2 & S3 & S4 & S5 & S6 & S7 & S8 & S9 & S10) ATT HC.
    eapply so_mono; [|eapply (var_session_so _ _ _ _ _ _ _ _ _ _ _ v_laws inner attr inner' attr' Q G ER REG QA HG INS FRM); eauto].
    - intros [s e] [s' e'] [M1 M2]. cbn [fst snd] in *. split; cbn [fst snd]; auto. apply srel_scaled. auto.
    - apply entries_img; auto. intros. apply times_points.
    - split; auto.
    - apply calls_scaled. auto.
  Qed.

  Section Sessions.
    Variables (x0 : arr vec) (checked : bool) (alpha sigma lamda dt : fl R) (perm0 : nat -> list nat) (names : option (list string)) (extra : list trk) (sv : option nat).
    Variable (l : list (call (K := R) (V := vec))).
    Hypothesis Hs : sensible d b x0 alpha sigma lamda dt perm0 sv.
    Hypothesis Hl : sensible_calls d (length x0) (shape1 x0) l.
    Notation session inner attr := (var_session inner attr c x0 checked alpha sigma lamda dt perm0 names extra sv l).
    Notation session' inner attr := (var_session inner attr c' (map (map (map tb)) x0) checked (times_by (/ en) alpha) sigma lamda dt perm0 names extra sv (map (scale_call k len en) l)).

    (** MirrorCBO: the dual points are moved by lengths *)
    Theorem scale_mirror : forall gc gr gc' gr',
      (forall p, length p = d -> exists q, gc (floats p) = floats q /\ length q = d /\ gc' (floats (vscal len p)) = floats (vscal len q)) ->
      (forall row v, In row x0 -> In v row -> exists q, gr v = floats q /\ length q = d /\ gr' (map tb v) = floats (vscal len q)) ->
      same_outcome (both (scaled len en d) (fun y y' => y' = map (map (map tb)) y)) (session (mirror_inner gc) (mirror_attr gr)) (session' (mirror_inner gc') (mirror_attr gr')).
    Proof.
      intros gc gr gc' gr' Hgc Hgr.
      eapply (scale_var _ _ _ _ _ _ no_cond (entries pimg) _ (mirror_regular gc) (attr_mirror gr)); auto. { exact I. }
      - intros o o' s s' e e' Ho H HL FP He. apply (mirror_so _ _ _ _ _ _ _ _ _ _ _ v_laws pimg); auto.
        + intros y y' (p & Lp & -> & ->). destruct (Hgc p Lp) as (q & E1 & E2 & E3). exists q. auto.
        + intros y y' u u' (p & Lp & -> & ->) (q & Lq & -> & ->). cbn [cbo_cfg c_vadd]. exists (vadd p q). rewrite !floats_add, vadd_scal by congruence. split; [apply length_vadd; auto|auto].
      - intros o s e s2 e2. apply mirror_frame.
      - intros y y'. apply entries_eq. intros. apply times_points.
      - intros s s' E1 E2. unfold mirror_attr. rewrite E1, E2. clear - Hgr. rewrite map_map.
        induction x0 as [|r X IH]; cbn; constructor; [|apply IH; intros; eapply Hgr; cbn; eauto].
        assert (Hr : forall v, In v r -> exists q, gr v = floats q /\ length q = d /\ gr' (map tb v) = floats (vscal len q)) by (intros; eapply Hgr; cbn; eauto).
        rewrite map_map. clear - Hr. induction r as [|v r IH]; cbn; constructor; [|apply IH; intros; apply Hr; cbn; auto].
        destruct (Hr v) as (q & E1 & E2 & E3); [cbn; auto|]. exists q. auto.
    Qed.

    (** DriftConstrainedCBO *)
    Theorem scale_dc : forall (G G' : multi (K := R) (V := vec)) e, e <> 0 ->
      (forall p, length p = d -> exists q, g_grad G (floats p) = floats q /\ length q = d /\ g_grad G' (floats (vscal len p)) = floats (vscal len q)) ->
      (forall a p u, length p = d -> length u = d ->
        same_outcome (fun w w' => real_point d w /\ w' = map tb w) (g_solve G (Fin a) (floats p) (floats u)) (g_solve G' (Fin a) (floats (vscal len p)) (floats (vscal len u)))) ->
      same_outcome (both (scaled len en d) (fun y y' => y' = y)) (session (dc_inner (Some G) (Fin e)) (fun _ => tt)) (session' (dc_inner (Some G') (Fin e)) (fun _ => tt)).
    Proof.
      intros G G' e He Hg Hsol.
      eapply (scale_var _ _ _ _ _ _ no_cond (fun y y' : unit => y' = y) _ (dc_regular (Some G) (Fin e)) attr_unit); auto. { exact I. }
      - intros o o' s s' y y' Ho H HL FP Hy. apply (dc_so _ _ _ _ _ _ _ _ _ _ _ v_laws); auto.
        + apply sub_scaled.
        + intros v v' (p & Lp & -> & ->). destruct (Hg p Lp) as (q & E1 & E2 & E3). exists q. auto.
        + intros t (r & -> & _). rewrite fdiv_fin by auto. eexists. reflexivity.
        + intros a v v' u u' [r ->] (p & Lp & -> & ->) (q & Lq & -> & ->). eapply so_mono; [|apply Hsol; auto]. intros w w' [(x & -> & Lx) ->]. exists x. rewrite times_points. auto.
      - intros o s y s2 y2. apply dc_frame.
    Qed.

    (** HyperSurfaceCBO *)
    Theorem scale_hyper : forall (S S' : surface (K := R) (V := vec)),
      (forall p u, length p = d -> length u = d -> exists q, h_tan S (floats p) (floats u) = floats q /\ length q = d /\ h_tan S' (floats (vscal len p)) (floats (vscal len u)) = floats (vscal len q)) ->
      (forall p, length p = d -> exists q, h_proj S (floats p) = floats q /\ length q = d /\ h_proj S' (floats (vscal len p)) = floats (vscal len q)) ->
      (forall t sg p u, length p = d -> length u = d -> exists q, h_nc S (Fin t) (Fin sg) (floats p) (floats u) = floats q /\ length q = d /\ h_nc S' (Fin t) (Fin sg) (floats (vscal len p)) (floats (vscal len u)) = floats (vscal len q)) ->
      same_outcome (both (scaled len en d) (fun y y' => y' = y)) (session (hyper_inner S) (fun _ => tt)) (session' (hyper_inner S') (fun _ => tt)).
    Proof.
      intros S S' Ht Hp Hn.
      eapply (scale_var _ _ _ _ _ _ one_consensus_point (fun y y' : unit => y' = y) _ (hyper_regular S) attr_unit); auto. { intros ? ? ?; reflexivity. }
      - intros o o' s s' y y' Ho H HL FP Hy. apply (hyper_so _ _ _ _ _ _ _ _ _ _ _ v_laws); auto.
        + apply sub_scaled.
        + intros a u u' (r & -> & _) (p & Lp & -> & ->). cbn [cbo_cfg c_vscale]. exists (vscal r p). rewrite !floats_scal, length_vscal, vscal_comm. auto.
        + intros x x' u u' (p & Lp & -> & ->) (q & Lq & -> & ->). destruct (Ht p q Lp Lq) as (w & E1 & E2 & E3). exists w. auto.
        + intros x x' (p & Lp & -> & ->). destruct (Hp p Lp) as (w & E1 & E2 & E3). exists w. auto.
        + intros t sg x x' u u' (r & -> & _) (r' & ->) (p & Lp & -> & ->) (q & Lq & -> & ->). destruct (Hn r r' p q Lp Lq) as (w & E1 & E2 & E3). exists w. auto.
      - intros o s y s2 y2. apply hyper_frame.
    Qed.

    (** RegCombinationCBO: the regularisation is an energy, its factor a pure number *)
    Theorem scale_reg : forall (f0 f0' reg reg' : vec -> fl R) (pow : fl R -> fl R) (la : R) (solve solve' : option (fl R -> vec -> vec -> res vec)) e,
      (forall v, f v = fadd (f0 v) (fmul (Fin la) (pow (reg v)))) ->
      (forall p, length p = d -> exists r q, f0 (floats p) = Fin r /\ f0' (floats (vscal len p)) = Fin (en * r) /\ pow (reg (floats p)) = Fin q /\ pow (reg' (floats (vscal len p))) = Fin (en * q)) ->
      match solve, solve' with
      | None, None => True
      | Some f, Some f' => e <> 0 /\ forall a p u, length p = d -> length u = d ->
          same_outcome (fun w w' => real_point d w /\ w' = map tb w) (f (Fin a) (floats p) (floats u)) (f' (Fin a) (floats (vscal len p)) (floats (vscal len u)))
      | _, _ => False
      end ->
      same_outcome (both (scaled len en d) (fun y y' => y' = y)) (session (reg_inner (reg_call f0 reg pow) solve (Fin e)) (reg_attr (Fin la)))
        (session' (reg_inner (reg_call f0' reg' pow) solve' (Fin e)) (reg_attr (Fin la))).
    Proof.
      intros f0 f0' reg reg' pow la solve solve' e Hf0 Hr Hsol.
      set (ER := fun o o' : regobj R => o' = o /\ o_scalar o = Fin la /\ match o_lamda o with None => True | Some ll => forall row, In row ll -> row = [Fin la] end).
      assert (RL : forall n o o', ER o o' -> (forall row, In row (broadcast_lamda n o) -> row = [Fin la]) /\ broadcast_lamda n o' = broadcast_lamda n o).
      { intros n o o' (-> & E1 & E2). split; auto. unfold broadcast_lamda. destruct (o_lamda o); auto. intros row Hin. apply repeat_spec in Hin. congruence. }
      eapply (scale_var _ _ _ _ _ _ (reg_cond f0 reg pow (Fin la)) ER _ (reg_regular f0 reg pow (Fin la) solve (Fin e)) (reg_attr_ok (Fin la))); auto.
      - split; [intros v; apply Hf0|intros ? ? ?; reflexivity].
      - intros o o' s s' y y' Ho H HL FP Hy. apply (reg_so _ _ _ _ _ _ _ _ _ _ _ v_laws ER); auto.
        + apply sub_scaled.
        + intros xs xs' y1 y1' Hx He. unfold reg_call. rewrite (F2_length _ _ _ _ _ Hx). destruct (RL (length xs) _ _ He) as [R1 R2]. rewrite R2.
          eapply so_bind.
          { apply bc2_so with (R := fun a a' => a' = a /\ a = Fin la) (S := fscal en) (T := fscal en).
            - apply F2_refl. intros row Hin. rewrite (R1 _ Hin). constructor; auto.
            - eapply map_entries; [exact Hx|]. intros v v' (p & Lp & -> & ->). destruct (Hr p Lp) as (r & q & E1 & E2 & E3 & E4). rewrite E3, E4. exists q. auto.
            - intros a a' w w' [-> ->] (q & -> & ->). exists (la * q). cbn. split; auto. f_equal. ring. }
          intros lr lr' _ _ Hlr. eapply so_bind.
          { apply bc2_so with (R := fscal en) (S := fscal en) (T := fscal en); [|exact Hlr|].
            - eapply map_entries; [exact Hx|]. intros v v' (p & Lp & -> & ->). destruct (Hr p Lp) as (r & q & E1 & E2 & E3 & E4). rewrite E1, E2. exists r. auto.
            - intros a a' w w' (r & -> & ->) (q & -> & ->). exists (r + q). cbn. split; auto. f_equal. ring. }
          intros en1 en1' _ _ Hen1. cbn [same_outcome]. destruct He as (E0 & E1 & E2). split; cbn [fst snd]; auto. split; [rewrite E0; reflexivity|]. cbn [o_scalar o_lamda]. auto.
        + intros xs y1 y1' y2 en1 He Hxs Ho2. unfold reg_call in Ho2. destruct (RL (length xs) _ _ He) as [R1 _].
          apply bind_ok in Ho2. destruct Ho2 as (lr & Hlr & Ho2). apply bind_ok in Ho2. destruct Ho2 as (en2 & Hen2 & Ho2). injection Ho2 as <- <-.
          apply (bc2_nonempty _ _ _ _ _ _ _) with (3 := Hen2).
          * intros row Hin. apply in_map_iff in Hin. destruct Hin as (r0 & <- & Hin). intros E. apply map_eq_nil in E. exact (Hxs _ Hin E).
          * apply (bc2_nonempty _ _ _ _ _ _ _) with (3 := Hlr); [intros row Hin; rewrite (R1 _ Hin); discriminate|].
            intros row Hin. apply in_map_iff in Hin. destruct Hin as (r0 & <- & Hin). intros E. apply map_eq_nil in E. exact (Hxs _ Hin E).
        + destruct solve as [sf|], solve' as [sf'|]; auto. destruct Hsol as [He Hsol]. split.
          * intros t (r & -> & _). rewrite fdiv_fin by auto. eexists. reflexivity.
          * intros a v v' u u' [r ->] (p & Lp & -> & ->) (q & Lq & -> & ->). eapply so_mono; [|apply Hsol; auto]. intros w w' [(x & -> & Lx) ->]. exists x. rewrite times_points. auto.
      - intros o s y s2 y2. apply reg_frame.
      - intros o o' [E0 _]. auto.
      - intros s s' _ _. split; [reflexivity|]. cbn. auto.
    Qed.
  End Sessions.
End Generic.

(** AdamCBO: its steps have a length of their own; energies can be rescaled *)
Section Adam.
  Variables (f f' : vec -> fl R) (k : noise_model) (pp : vec -> vec) (co co' : corr R) (b : nat) (partial cat : bool) (ks : list (crit R vec)) (save : bool).
  Variables (d : nat) (en : R).
  Hypothesis Hen : 0 < en.
  Hypothesis Hks : Forall builtin ks.
  Hypothesis Hco : finite_corr co.
  Hypothesis Hcc : scale_corr en co co'.
  Hypothesis Hf : finite_obj d f.
  Hypothesis Hff : forall p, length p = d -> f' (floats p) = times_by en (f (floats p)).
  Hypothesis Hpp : forall p, length p = d -> exists q, pp (floats p) = floats q /\ length q = d.
  Variables (b0 b1 eps : R).
  Hypothesis H0 : 0 <= b0 < 1.
  Hypothesis H1 : 0 <= b1 < 1.
  Hypothesis He : 0 < eps.
  Notation par := (mkapar (Fin b0) (Fin b1) (Fin eps)).
  Notation inner := (adam_inner np_sq np_quot par).
  Notation attr := (adam_attr (floats (repeat 0%R d))).
  Notation pimg := (img d (vscal 1)).

  Lemma one_scal : forall p, vscal 1 p = p.
  Proof. intros p. unfold vscal. rewrite <- (map_id p) at 2. apply map_ext. intros x. ring. Qed.
  Lemma one_img : forall v v', pimg v v' -> v' = v /\ real_point d v.
  Proof. intros v v' (p & Lp & -> & ->). rewrite one_scal. split; auto. exists p. auto. Qed.
  Lemma img_one : forall p, length p = d -> pimg (floats p) (floats p).
  Proof. intros p Lp. exists p. rewrite one_scal. auto. Qed.
  Lemma adam_laws : laws pimg pimg (img d (zscal k 1)) (escal en) (fscal en) (ascal en) (uscal 1) finite_scalar time_step
    (cbo_cfg f k pp co b partial cat ks save) (cbo_cfg f' k pp co' b partial cat (map (scale_crit 1 en) ks) save).
  Proof.
    apply v_laws; auto.
    - lra.
    - intros p Hp. rewrite one_scal. auto.
    - intros p Hp. destruct (Hpp p Hp) as (q & E1 & E2). exists q. rewrite !one_scal. auto.
  Qed.

  Theorem scale_adam : forall x0 checked alpha sigma lamda dt perm0 names extra sv l, sensible d b x0 alpha sigma lamda dt perm0 sv ->
    sensible_calls d (length x0) (shape1 x0) l ->
    same_outcome (both (scaled 1 en d) (fun y y' => y' = y))
      (var_session inner attr (cbo_cfg f k pp co b partial cat ks save) x0 checked alpha sigma lamda dt perm0 names extra sv l)
      (var_session inner attr (cbo_cfg f' k pp co' b partial cat (map (scale_crit 1 en) ks) save) (map (map (map (times_by 1))) x0) checked (times_by (/ en) alpha) sigma lamda dt perm0 names extra sv (map (scale_call k 1 en) l)).
  Proof.
    intros x0 checked alpha sigma lamda dt perm0 names extra sv l HS HC.
    assert (FF : forall n bb, 0 <= bb < 1 -> fdiv (Fin k1) (fsub (Fin k1) (fpow (Fin bb) (S n))) = Fin (1 / (1 - bb ^ S n))) by (intros; apply factor_fin; auto).
    assert (HF1 : forall p, length p = d -> f' (floats (vscal 1 p)) = times_by en (f (floats p))) by (intros p Hp; rewrite one_scal; auto).
    assert (HP1 : forall p, length p = d -> exists q, pp (floats p) = floats q /\ length q = d /\ pp (floats (vscal 1 p)) = floats (vscal 1 q)).
    { intros p Hp. destruct (Hpp p Hp) as (q & E1 & E2). exists q. rewrite !one_scal. auto. }
    eapply (scale_var f f' k pp pp co co' b partial cat ks save d 1 en Rlt_0_1 Hen Hks Hco Hcc Hf HF1 HP1
      _ _ _ _ _ _ no_cond (both (entries pimg) (entries (nonneg_same d))) _ (adam_regular np_sq np_quot par) (attr_adam _)); auto. { exact I. }
    - intros o o' s s' y y' Ho H HL FP Hy.
      apply (adam_so _ _ _ _ _ _ _ _ _ _ _ adam_laws (nonneg_same d)); auto.
      + apply sub_scaled; auto.
      + apply sub_scaled; auto.
      + intros u u' w w' [-> (p & -> & Lp & Hp)] [-> (q & -> & Lq & Hq)]. split; auto. exists (vadd p q). cbn [cbo_cfg c_vadd]. rewrite floats_add. split; auto. split; [apply length_vadd; auto|].
        intros i Hi. rewrite coord_vadd by congruence. specialize (Hp i Hi). specialize (Hq i Hi). lra.
      + cbn [a_b0]. split; [exists b0; auto|]. split; [exists (1 - b0); auto|]. intros n. rewrite FF by auto. eexists. reflexivity.
      + intros u u' Hu. apply scale_same; auto. apply H1.
      + intros u u' Hu. destruct (one_img _ _ Hu) as (-> & p & -> & Lp). apply (scale_same d (1 - b1)); [lra|]. split; auto. exists (squares p). rewrite np_sq_floats. split; auto.
        split; [unfold squares; rewrite map2_length; lia|]. intros i Hi. unfold squares. rewrite coord_mul by auto. apply Rle_0_sqr.
      + intros n u u' Hu. cbn [a_b1 cbo_cfg c_vscale]. rewrite FF by auto. apply scale_same; auto. pose proof (pow_lt_1 b1 n H1). apply Rlt_le, Rdiv_lt_0_compat; lra.
      + intros m m' v v' Hm [-> Hv]. destruct (one_img _ _ Hm) as (-> & p & -> & Lp). destruct (quot_same d eps He p v Lp Hv) as (q & E1 & E2). cbn [a_eps]. rewrite E1. apply img_one. auto.
    - intros o s y s2 y2. apply adam_frame.
    - intros [m v] [m' v'] [Hm Hv]. cbn [fst snd] in *. f_equal.
      + rewrite (entries_eq d (vscal 1) (fun p => p) _ _ ltac:(intros; rewrite one_scal; auto) Hm). apply map_id_arr.
      + assert (G : entries eq v v'). { eapply entries_impl; [|exact Hv]. intros a a' [-> _]. auto. } clear - G. induction G as [|r r' X X' Hr G IH]; auto. f_equal; auto. apply F2_eq; auto.
    - intros s s' E1 E2. assert (Z : nonneg_same d (floats (repeat 0 d)) (floats (repeat 0 d))).
      { split; auto. exists (repeat 0 d). split; auto. split; [apply repeat_length|]. intros i Hi. unfold coord. rewrite nth_repeat. lra. }
      assert (Z' : pimg (floats (repeat 0 d)) (floats (repeat 0 d))) by (apply img_one; apply repeat_length).
      eapply (adam_attr_so (fun _ _ => True)); eauto. clear. induction x0 as [|r X IH]; cbn; constructor; auto. induction r; cbn; constructor; auto.
  Qed.
End Adam.

(** the direction of AdamCBO is a pure number: it does not change with the unit of length when eps is converted *)
Lemma adam_direction : forall len eps (m v : list R), 0 < len -> length m = length v -> (forall x, In x v -> 0 <= x) -> 0 < eps ->
  np_quot (Fin (len * eps)) (floats (vscal len m)) (floats (vscal (len * len) v)) = np_quot (Fin eps) (floats m) (floats v).
Proof.
  intros len eps m v Hl. revert v. induction m as [|a m IH]; intros [|y v] HL Hv He; cbn [length] in HL; try discriminate; auto. unfold np_quot, floats, vscal in *. cbn [map map2]. f_equal.
  - assert (Hy : 0 <= y) by (apply Hv; cbn; auto). pose proof (sqrt_pos y). rewrite !fsqrt_fin by nra. cbn [fadd kadd KOps_R]. rewrite sqrt_mult, sqrt_square by nra.
    rewrite !fdiv_fin by nra. f_equal. field. split; nra.
  - apply IH; auto. intros; apply Hv; cbn; auto.
Qed.
