(** * Symmetries of sessions of the variants of CBO *)
From Coq Require Import String List Arith Bool Reals Permutation Lia Lra.
From Verif Require Import Scalar RFacts Np NpFacts State Pdyn PdynFacts PdynStep PdynOk Exec TermSpec RVec RVecFacts Consensus ConsSpec ConsFacts PostProc Cbo CboSpec CboFacts AbsorbFacts
  TwinSpec TwinFacts SymFacts Memory MemSpec RegSched RegFacts RegVar Variant VarSpec VarFacts AdamSpec AdamFacts AdamR SimSpec SimNp SimFacts MemSymSpec SimMem SessSpec SimCbo SymLaws VarSessSpec SimVar.
Import ListNotations.
Open Scope R_scope.

Lemma vsub_as_add : forall d x u, length x = d -> length u = d -> vsub x u = vadd x (vscal (-1) u).
Proof.
  intros d x u Hx Hu. apply (coord_ext _ _ d); [apply length_vsub; auto|apply length_vadd; auto; rewrite length_vscal; auto|].
  intros i Hi. rewrite coord_vsub, coord_vadd, coord_vscal by (rewrite ?length_vscal; congruence). ring.
Qed.

Lemma bpairs_nonempty : forall A B (l : list A) (m : list B) ps, l <> [] -> m <> [] -> bpairs l m = Ok ps -> ps <> [].
Proof.
  intros A B l m ps Hl Hm H. unfold bpairs in H. destruct l as [|a l]; [congruence|]. destruct m as [|b0 m]; [congruence|]. destruct (length (a :: l) =? length (b0 :: m))%nat.
  - injection H as <-. discriminate.
  - destruct l as [|a2 l], m as [|b2 m]; cbn in H; try discriminate; injection H as <-; discriminate.
Qed.
Lemma bpairs_in : forall A B (l : list A) (m : list B) ps p, bpairs l m = Ok ps -> In p ps -> In (fst p) l /\ In (snd p) m.
Proof.
  intros A B l m ps [p q] Hp Hi. unfold bpairs in Hp. destruct (length l =? length m)%nat.
  { injection Hp as <-. split; [apply in_combine_l in Hi|apply in_combine_r in Hi]; auto. }
  destruct l as [|a [|a2 l]]; [destruct m as [|? [|]]; try discriminate|injection Hp as <-|destruct m as [|? [|]]; try discriminate].
  - injection Hp as <-. destruct Hi.
  - apply in_map_iff in Hi. destruct Hi as (y & [= <- <-] & Hy). cbn; auto.
  - injection Hp as <-. change (In (p, q) (map (fun a : A => (a, b)) (a :: a2 :: l))) in Hi. apply in_map_iff in Hi. destruct Hi as (y & [= <- <-] & Hy). cbn; auto.
Qed.
Lemma bc2_nonempty : forall A B C (f : A -> B -> C) X Y Z, (forall r, In r X -> r <> []) -> (forall r, In r Y -> r <> []) -> bc2 f X Y = Ok Z -> forall r, In r Z -> r <> [].
Proof.
  intros A B C f X Y Z HX HY H r Hr. unfold bc2 in H. apply bind_ok in H. destruct H as (rows & H1 & H2). apply In_nth_error in Hr. destruct Hr as [n Hn].
  pose proof (mapM_length _ _ _ _ _ H2) as HL. assert (Hlt : (n < length rows)%nat) by (rewrite <- HL; apply nth_error_Some; congruence).
  destruct (nth_error rows n) as [p|] eqn:Ep; [|apply nth_error_None in Ep; lia].
  destruct (mapM_nth _ _ _ _ _ _ _ H2 Ep) as (r' & E2 & E1). rewrite Hn in E1. injection E1 as <-.
  destruct (bpairs_in _ _ _ _ _ _ H1 (nth_error_In _ _ Ep)) as [I1 I2].
  apply bind_ok in E2. destruct E2 as (cells & E3 & E4). injection E4 as <-. intros E. apply map_eq_nil in E. exact (bpairs_nonempty _ _ _ _ _ (HX _ I1) (HY _ I2) E3 E).
Qed.

(** a point of R^d with nonnegative coordinates *)
Definition nonneg_point (d : nat) (v : vec) : Prop := exists p, v = floats p /\ length p = d /\ forall i, (i < d)%nat -> 0 <= coord i p.

Section Generic.
  Variables (f f' : vec -> fl R) (k : noise_model) (pp pp' : vec -> vec) (co : corr R) (b : nat) (partial cat : bool) (ks : list (crit R vec)) (save : bool).
  Variables (d : nat) (h : R) (g hh Li : list R -> list R) (phi chi lin : vec -> vec).
  Notation c := (cbo_cfg f k pp co b partial cat ks save).
  Notation c' := (cbo_cfg f' k pp' co b partial cat (map (image_crit (add_energy h)) ks) save).
  Hypothesis Hks : Forall builtin ks.
  Hypothesis Hco : finite_corr co.
  Hypothesis SY : symmetry f f' k pp pp' d h g hh Li.
  Hypothesis Hphi : forall p, length p = d -> phi (floats p) = floats (g p).
  Hypothesis Hchi : forall p, length p = d -> chi (floats p) = floats (hh p).
  Hypothesis Hlin : forall p, length p = d -> lin (floats p) = floats (Li p).

  Lemma var_laws : laws (img d g) (img d Li) (img d hh) (eimg h) (fimg h) aimg eq finite_scalar time_step c c'.
  Proof.
    destruct SY as [Q1 Q2 Q3 Q4 Q5 Q6 Q7 Q8 Q9 Q10 Q11 Q12 Q13]. apply (sym_laws f f' k pp pp' co b partial cat ks save d d); auto.
    - intros P HP. rewrite !map_length. f_equal. apply (same_norm d); auto.
    - apply image_crits; auto. intros t u u' ->. auto.
  Qed.

  Lemma sub_point : forall u u' w w', img d g u u' -> img d Li w w' -> img d g (c_vsub c u w) (c_vsub c' u' w').
  Proof.
    intros u u' w w' (p & Lp & -> & ->) (q & Lq & -> & ->). exists (vsub p q). cbn [cbo_cfg c_vsub]. rewrite !floats_sub. split; [apply length_vsub; auto|]. split; auto. f_equal.
    rewrite (vsub_as_add d (g p) (Li q)) by (apply SY; auto). rewrite <- (sy_scal _ _ _ _ _ _ _ _ _ _ SY) by auto.
    rewrite (sy_add _ _ _ _ _ _ _ _ _ _ SY) by (rewrite ?length_vscal; auto). rewrite <- vsub_as_add with (d := d) by auto. auto.
  Qed.
  Lemma sub_vector : forall u u' w w', img d Li u u' -> img d Li w w' -> img d Li (c_vsub c u w) (c_vsub c' u' w').
  Proof.
    intros u u' w w' (p & Lp & -> & ->) (q & Lq & -> & ->). exists (vsub p q). cbn [cbo_cfg c_vsub]. rewrite !floats_sub. split; [apply length_vsub; auto|]. split; auto. f_equal.
    rewrite (vsub_as_add d (Li p) (Li q)) by (apply SY; auto). rewrite <- (sy_scal _ _ _ _ _ _ _ _ _ _ SY) by auto.
    rewrite <- (sy_addd _ _ _ _ _ _ _ _ _ _ SY) by (rewrite ?length_vscal; auto). rewrite <- vsub_as_add with (d := d) by auto. auto.
  Qed.

  (** any variant whose inner step respects the relations *)
  Theorem generic_var : forall (E : Type) (inner inner' : cfg R vec -> orc vec -> st R vec -> E -> res (st R vec * E)) (attr attr' : st R vec -> E)
    (Q : nat -> nat -> E -> Prop) (G : cfg R vec -> Prop) (ER ER' : E -> E -> Prop),
    regular inner Q G -> (forall (c : cfg R vec) (s : st R vec), wf c s -> Q (s_M s) (s_N s) (attr s)) -> G c ->
    (forall o o' s s' e e', orel (img d hh) o o' -> state_related (img d g) (img d Li) (eimg h) aimg eq s s' -> live (s_cidx s) (s_x s) -> finite_pars finite_scalar time_step s -> ER e e' ->
      same_outcome (both (state_related (img d g) (img d Li) (eimg h) aimg eq) ER) (inner c o s e) (inner' c' o' s' e')) ->
    (forall o s e s2 e2, inner c o s e = Ok (s2, e2) -> same_setting s s2) ->
    (forall e e', ER e e' -> ER' e e') ->
    forall x0 checked alpha sigma lamda dt perm0 names extra sv l, sensible d b x0 alpha sigma lamda dt perm0 sv ->
    (forall s s', s_x s = x0 -> s_x s' = map (map phi) x0 -> ER (attr s) (attr' s')) ->
    sensible_calls d (length x0) (shape1 x0) l ->
    same_outcome (both (cbo_mapped (real_point d) phi lin (add_energy h)) ER')
      (var_session inner attr c x0 checked alpha sigma lamda dt perm0 names extra sv l)
      (var_session inner' attr' c' (map (map phi) x0) checked alpha sigma lamda dt perm0 names extra sv (map (change_draws chi) l)).
  Proof.
    intros E inner inner' attr attr' Q G ER ER' REG QA HG INS FRM HER x0 checked alpha sigma lamda dt perm0 names extra sv l (S1 & S2 & S3 & S4 & S5 & S6 & S7 & S8 & S9 & S10) ATT HC.
    eapply so_mono; [|eapply (var_session_so _ _ _ _ _ _ _ _ _ _ _ var_laws inner attr inner' attr' Q G ER REG QA HG INS FRM); eauto].
    - intros [s e] [s' e'] [M1 M2]. cbn [fst snd] in *. split; cbn [fst snd]; auto. eapply related_impl; [..|exact M1]; auto.
      * intros u u' (p & Lp & -> & ->). split; [exists p; auto|symmetry; auto].
      * intros u u' (p & Lp & -> & ->). split; [exists p; auto|symmetry; auto].
      * intros a a' [-> _]. auto.
      * intros a a' [-> _]. auto.
    - apply (entries_img d g phi); auto.
    - split; auto.
    - clear - HC Hchi. revert HC. induction l as [|a l IH]; intros HC; cbn; auto.
      destruct a as [o| |al sg la dt'|]; cbn in HC |- *; auto.
      + destruct HC as (H1 & H2 & HC). split; [split; auto; cbn; intros; apply (real_img d hh chi); auto|]. split; auto.
      + destruct HC as ((H1 & H2 & H3 & H4) & HC). split; [split; auto|]. do 3 (split; [auto|]). auto.
  Qed.

  Section Sessions.
    Variables (x0 : arr vec) (checked : bool) (alpha sigma lamda dt : fl R) (perm0 : nat -> list nat) (names : option (list string)) (extra : list trk) (sv : option nat).
    Variable (l : list (call (K := R) (V := vec))).
    Hypothesis Hs : sensible d b x0 alpha sigma lamda dt perm0 sv.
    Hypothesis Hl : sensible_calls d (length x0) (shape1 x0) l.
    Notation mapped := (cbo_mapped (real_point d) phi lin (add_energy h)).
    Notation session inner attr := (var_session inner attr c x0 checked alpha sigma lamda dt perm0 names extra sv l).
    Notation session' inner attr := (var_session inner attr c' (map (map phi) x0) checked alpha sigma lamda dt perm0 names extra sv (map (change_draws chi) l)).

    (** MirrorCBO; [j]: the map on dual points *)
    Theorem generic_mirror : forall (j : list R -> list R) (jj : vec -> vec) gc gr gc' gr', (forall p, length p = d -> length (j p) = d) ->
      (forall p, length p = d -> jj (floats p) = floats (j p)) ->
      (forall y u, length y = d -> length u = d -> vadd (j y) (Li u) = j (vadd y u)) ->
      (forall p, length p = d -> exists q, gc (floats p) = floats q /\ length q = d /\ gc' (floats (j p)) = floats (g q)) ->
      (forall row v, In row x0 -> In v row -> exists q, gr v = floats q /\ length q = d /\ gr' (phi v) = floats (j q)) ->
      same_outcome (both mapped (fun y y' => y' = map (map jj) y)) (session (mirror_inner gc) (mirror_attr gr)) (session' (mirror_inner gc') (mirror_attr gr')).
    Proof.
      intros j jj gc gr gc' gr' Lj Hjj Hj Hgc Hgr.
      eapply (generic_var _ _ _ _ _ _ no_cond (entries (img d j)) _ (mirror_regular gc) (attr_mirror gr)); auto. { exact I. }
      - intros o o' s s' e e' Ho H HL FP He. apply (mirror_so _ _ _ _ _ _ _ _ _ _ _ var_laws (img d j)); auto.
        + intros y y' (p & Lp & -> & ->). destruct (Hgc p Lp) as (q & E1 & E2 & E3). exists q. auto.
        + intros y y' u u' (p & Lp & -> & ->) (q & Lq & -> & ->). cbn [cbo_cfg c_vadd]. exists (vadd p q). rewrite !floats_add, Hj by auto. split; [apply length_vadd; auto|auto].
      - intros o s e s2 e2. apply mirror_frame.
      - intros y y'. apply entries_eq. auto.
      - intros s s' E1 E2. unfold mirror_attr. rewrite E1, E2. clear - Hgr. rewrite map_map.
        induction x0 as [|r X IH]; cbn; constructor; [|apply IH; intros; eapply Hgr; cbn; eauto].
        assert (Hr : forall v, In v r -> exists q, gr v = floats q /\ length q = d /\ gr' (phi v) = floats (j q)) by (intros; eapply Hgr; cbn; eauto).
        rewrite map_map. clear - Hr. induction r as [|v r IH]; cbn; constructor; [|apply IH; intros; apply Hr; cbn; auto].
        destruct (Hr v) as (q & E1 & E2 & E3); [cbn; auto|]. exists q. auto.
    Qed.

    (** DriftConstrainedCBO *)
    Theorem generic_dc : forall (G G' : multi (K := R) (V := vec)) e, e <> 0 ->
      (forall p, length p = d -> exists q, g_grad G (floats p) = floats q /\ length q = d /\ g_grad G' (floats (g p)) = floats (Li q)) ->
      (forall a p u, length p = d -> length u = d ->
        same_outcome (fun w w' => real_point d w /\ w' = lin w) (g_solve G (Fin a) (floats p) (floats u)) (g_solve G' (Fin a) (floats (g p)) (floats (Li u)))) ->
      same_outcome (both mapped (fun y y' => y' = y)) (session (dc_inner (Some G) (Fin e)) (fun _ => tt)) (session' (dc_inner (Some G') (Fin e)) (fun _ => tt)).
    Proof.
      intros G G' e He Hg Hsol.
      eapply (generic_var _ _ _ _ _ _ no_cond (fun y y' : unit => y' = y) _ (dc_regular (Some G) (Fin e)) attr_unit); auto. { exact I. }
      - intros o o' s s' y y' Ho H HL FP Hy. apply (dc_so _ _ _ _ _ _ _ _ _ _ _ var_laws); auto.
        + apply sub_point.
        + intros v v' (p & Lp & -> & ->). destruct (Hg p Lp) as (q & E1 & E2 & E3). exists q. auto.
        + intros t (r & -> & _). rewrite fdiv_fin by auto. eexists. reflexivity.
        + intros a v v' u u' [r ->] (p & Lp & -> & ->) (q & Lq & -> & ->). eapply so_mono; [|apply Hsol; auto]. intros w w' [(x & -> & Lx) ->]. exists x. auto.
      - intros o s y s2 y2. apply dc_frame.
    Qed.

    (** HyperSurfaceCBO *)
    Theorem generic_hyper : forall (S S' : surface (K := R) (V := vec)),
      (forall a p, length p = d -> vscal a (g p) = Li (vscal a p)) ->
      (forall p u, length p = d -> length u = d -> exists q, h_tan S (floats p) (floats u) = floats q /\ length q = d /\ h_tan S' (floats (g p)) (floats (Li u)) = floats (Li q)) ->
      (forall p, length p = d -> exists q, h_proj S (floats p) = floats q /\ length q = d /\ h_proj S' (floats (g p)) = floats (g q)) ->
      (forall t sg p u, length p = d -> length u = d -> exists q, h_nc S (Fin t) (Fin sg) (floats p) (floats u) = floats q /\ length q = d /\ h_nc S' (Fin t) (Fin sg) (floats (g p)) (floats (Li u)) = floats (Li q)) ->
      same_outcome (both mapped (fun y y' => y' = y)) (session (hyper_inner S) (fun _ => tt)) (session' (hyper_inner S') (fun _ => tt)).
    Proof.
      intros S S' Hsc Ht Hp Hn.
      eapply (generic_var _ _ _ _ _ _ one_consensus_point (fun y y' : unit => y' = y) _ (hyper_regular S) attr_unit); auto. { intros ? ? ?; reflexivity. }
      - intros o o' s s' y y' Ho H HL FP Hy. apply (hyper_so _ _ _ _ _ _ _ _ _ _ _ var_laws); auto.
        + apply sub_point.
        + intros a u u' (r & -> & _) (p & Lp & -> & ->). cbn [cbo_cfg c_vscale]. exists (vscal r p). rewrite !floats_scal, length_vscal, Hsc by auto. auto.
        + intros x x' u u' (p & Lp & -> & ->) (q & Lq & -> & ->). destruct (Ht p q Lp Lq) as (w & E1 & E2 & E3). exists w. auto.
        + intros x x' (p & Lp & -> & ->). destruct (Hp p Lp) as (w & E1 & E2 & E3). exists w. auto.
        + intros t sg x x' u u' (r & -> & _) (r' & ->) (p & Lp & -> & ->) (q & Lq & -> & ->). destruct (Hn r r' p q Lp Lq) as (w & E1 & E2 & E3). exists w. auto.
      - intros o s y s2 y2. apply hyper_frame.
    Qed.

    (** RegCombinationCBO *)
    Theorem generic_reg : forall (f0 f0' reg reg' : vec -> fl R) (pow : fl R -> fl R) (la : R) (solve solve' : option (fl R -> vec -> vec -> res vec)) e,
      (forall v, f v = fadd (f0 v) (fmul (Fin la) (pow (reg v)))) ->
      (forall p, length p = d -> exists r q, f0 (floats p) = Fin r /\ f0' (floats (g p)) = Fin (r + h) /\ pow (reg (floats p)) = Fin q /\ pow (reg' (floats (g p))) = Fin q) ->
      match solve, solve' with
      | None, None => True
      | Some f, Some f' => e <> 0 /\ forall a p u, length p = d -> length u = d ->
          same_outcome (fun w w' => real_point d w /\ w' = phi w) (f (Fin a) (floats p) (floats u)) (f' (Fin a) (floats (g p)) (floats (g u)))
      | _, _ => False
      end ->
      same_outcome (both mapped (fun y y' => y' = y)) (session (reg_inner (reg_call f0 reg pow) solve (Fin e)) (reg_attr (Fin la)))
        (session' (reg_inner (reg_call f0' reg' pow) solve' (Fin e)) (reg_attr (Fin la))).
    Proof.
      intros f0 f0' reg reg' pow la solve solve' e Hf Hr Hsol.
      set (ER := fun o o' : regobj R => o' = o /\ o_scalar o = Fin la /\ match o_lamda o with None => True | Some ll => forall row, In row ll -> row = [Fin la] end).
      assert (RL : forall n o o', ER o o' -> (forall row, In row (broadcast_lamda n o) -> row = [Fin la]) /\ broadcast_lamda n o' = broadcast_lamda n o).
      { intros n o o' (-> & E1 & E2). split; auto. unfold broadcast_lamda. destruct (o_lamda o); auto. intros row Hin. apply repeat_spec in Hin. congruence. }
      eapply (generic_var _ _ _ _ _ _ (reg_cond f0 reg pow (Fin la)) ER _ (reg_regular f0 reg pow (Fin la) solve (Fin e)) (reg_attr_ok (Fin la))); auto.
      - split; [intros v; apply Hf|intros ? ? ?; reflexivity].
      - intros o o' s s' y y' Ho H HL FP Hy. apply (reg_so _ _ _ _ _ _ _ _ _ _ _ var_laws ER); auto.
        + apply sub_point.
        + intros xs xs' y1 y1' Hx He. unfold reg_call. rewrite (F2_length _ _ _ _ _ Hx). destruct (RL (length xs) _ _ He) as [R1 R2]. rewrite R2.
          eapply so_bind.
          { apply bc2_so with (R := fun a a' => a' = a /\ a = Fin la) (S := fun a a' => a' = a /\ finite_scalar a) (T := fun a a' => a' = a /\ finite_scalar a).
            - apply F2_refl. intros row Hin. rewrite (R1 _ Hin). constructor; auto.
            - eapply map_entries; [exact Hx|]. intros v v' (p & Lp & -> & ->). destruct (Hr p Lp) as (r & q & E1 & E2 & E3 & E4). rewrite E3, E4. split; auto. exists q. auto.
            - intros a a' w w' [-> ->] [-> [q ->]]. split; auto. eexists. reflexivity. }
          intros lr lr' _ _ Hlr. eapply so_bind.
          { apply bc2_so with (R := fimg h) (S := fun a a' => a' = a /\ finite_scalar a) (T := fimg h); [|exact Hlr|].
            - eapply map_entries; [exact Hx|]. intros v v' (p & Lp & -> & ->). destruct (Hr p Lp) as (r & q & E1 & E2 & E3 & E4). rewrite E1, E2. exists r. auto.
            - intros a a' w w' (r & -> & ->) [-> [q ->]]. exists (r + q). cbn. split; auto. f_equal. ring. }
          intros en en' _ _ Hen. cbn [same_outcome]. destruct He as (E0 & E1 & E2). split; cbn [fst snd]; auto. split; [rewrite E0; reflexivity|]. cbn [o_scalar o_lamda]. auto.
        + intros xs y1 y1' y2 en He Hxs Ho2. unfold reg_call in Ho2. destruct (RL (length xs) _ _ He) as [R1 _].
          apply bind_ok in Ho2. destruct Ho2 as (lr & Hlr & Ho2). apply bind_ok in Ho2. destruct Ho2 as (en2 & Hen & Ho2). injection Ho2 as <- <-.
          apply (bc2_nonempty _ _ _ _ _ _ _) with (3 := Hen).
          * intros row Hin. apply in_map_iff in Hin. destruct Hin as (r0 & <- & Hin). intros E. apply map_eq_nil in E. exact (Hxs _ Hin E).
          * apply (bc2_nonempty _ _ _ _ _ _ _) with (3 := Hlr); [intros row Hin; rewrite (R1 _ Hin); discriminate|].
            intros row Hin. apply in_map_iff in Hin. destruct Hin as (r0 & <- & Hin). intros E. apply map_eq_nil in E. exact (Hxs _ Hin E).
        + destruct solve as [sf|], solve' as [sf'|]; auto. destruct Hsol as [He Hsol]. split.
          * intros t (r & -> & _). rewrite fdiv_fin by auto. eexists. reflexivity.
          * intros a v v' u u' [r ->] (p & Lp & -> & ->) (q & Lq & -> & ->). eapply so_mono; [|apply Hsol; auto]. intros w w' [(x & -> & Lx) ->]. exists x. auto.
      - intros o s y s2 y2. apply reg_frame.
      - intros o o' [E0 _]. auto.
      - intros s s' _ _. split; [reflexivity|]. cbn. auto.
    Qed.
  End Sessions.
End Generic.

(** AdamCBO is not turned by isometries; here the drifts stay the same *)
Section Adam.
  Variables (f f' : vec -> fl R) (k : noise_model) (pp pp' : vec -> vec) (co : corr R) (b : nat) (partial cat : bool) (ks : list (crit R vec)) (save : bool).
  Variables (d : nat) (h : R) (g : list R -> list R) (phi : vec -> vec).
  Hypothesis Hks : Forall builtin ks.
  Hypothesis Hco : finite_corr co.
  Hypothesis SY : symmetry f f' k pp pp' d h g (fun p => p) (fun p => p).
  Hypothesis Hphi : forall p, length p = d -> phi (floats p) = floats (g p).
  Variables (b0 b1 eps : R).
  Hypothesis H0 : 0 <= b0 < 1.
  Hypothesis H1 : 0 <= b1 < 1.
  Hypothesis He : 0 < eps.
  Notation par := (mkapar (Fin b0) (Fin b1) (Fin eps)).
  Notation inner := (adam_inner np_sq np_quot par).
  Notation attr := (adam_attr (floats (repeat 0%R d))).
  Definition nonneg_same (v v' : vec) : Prop := v' = v /\ nonneg_point d v.

  Lemma scale_same : forall a v v', 0 <= a -> nonneg_same v v' -> nonneg_same (map (fmul (Fin a)) v) (map (fmul (Fin a)) v').
  Proof.
    intros a v v' Ha [-> (p & -> & Lp & Hp)]. split; auto. exists (vscal a p). rewrite floats_scal, length_vscal. split; auto. split; auto. intros i Hi. rewrite coord_vscal. apply Rmult_le_pos; auto.
  Qed.
  Lemma quot_same : forall m v, length m = d -> nonneg_point d v -> exists q, np_quot (Fin eps) (floats m) v = floats q /\ length q = d.
  Proof.
    intros m v Lm (p & -> & Lp & Hp). exists (map2 (fun a b => a / (sqrt b + eps)) m p). split; [|rewrite map2_length; lia].
    unfold np_quot, floats. assert (Hp' : forall b, In b p -> 0 <= b). { intros b' Hb. apply In_nth with (d := 0) in Hb. destruct Hb as (i & Hi & <-). apply Hp. lia. }
    assert (Ll : length m = length p) by congruence. clear - Ll Hp' He. revert p Ll Hp'. induction m as [|a m IH]; intros [|y p] Ll Hp'; cbn [length map map2] in Ll |- *; auto; try discriminate. f_equal.
    - rewrite fsqrt_fin by (apply Hp'; cbn; auto). cbn [fadd kadd KOps_R]. pose proof (sqrt_pos y). rewrite fdiv_fin by lra. auto.
    - apply IH; [lia|]. intros; apply Hp'; cbn; auto.
  Qed.

  Theorem generic_adam : forall x0 checked alpha sigma lamda dt perm0 names extra sv l, sensible d b x0 alpha sigma lamda dt perm0 sv ->
    sensible_calls d (length x0) (shape1 x0) l ->
    same_outcome (both (cbo_mapped (real_point d) phi (fun v => v) (add_energy h)) (fun y y' => y' = y))
      (var_session inner attr (cbo_cfg f k pp co b partial cat ks save) x0 checked alpha sigma lamda dt perm0 names extra sv l)
      (var_session inner attr (cbo_cfg f' k pp' co b partial cat (map (image_crit (add_energy h)) ks) save) (map (map phi) x0) checked alpha sigma lamda dt perm0 names extra sv l).
  Proof.
    intros x0 checked alpha sigma lamda dt perm0 names extra sv l HS HC. rewrite <- (change_draws_id l) at 2.
    assert (FF : forall n bb, 0 <= bb < 1 -> fdiv (Fin k1) (fsub (Fin k1) (fpow (Fin bb) (S n))) = Fin (1 / (1 - bb ^ S n))) by (intros; apply factor_fin; auto).
    eapply (generic_var f f' k pp pp' co b partial cat ks save d h g (fun p => p) (fun p => p) phi (fun v => v) (fun v => v) Hks Hco SY Hphi ltac:(auto) ltac:(auto)
      _ _ _ _ _ _ no_cond (both (entries (img d (fun p => p))) (entries nonneg_same)) _ (adam_regular np_sq np_quot par) (attr_adam _)); auto. { exact I. }
    - intros o o' s s' y y' Ho H HL FP Hy.
      apply (adam_so _ _ _ _ _ _ _ _ _ _ _ (var_laws f f' k pp pp' co b partial cat ks save d h g (fun p => p) (fun p => p) Hks Hco SY) nonneg_same); auto.
      + intros u u' w w'. eapply sub_vector; eauto.
      + intros u u' w w'. eapply sub_point; eauto.
      + intros u u' w w' [-> (p & -> & Lp & Hp)] [-> (q & -> & Lq & Hq)]. split; auto. exists (vadd p q). cbn [cbo_cfg c_vadd]. rewrite floats_add. split; auto. split; [apply length_vadd; auto|].
        intros i Hi. rewrite coord_vadd by congruence. specialize (Hp i Hi). specialize (Hq i Hi). lra.
      + cbn [a_b0]. split; [exists b0; auto|]. split; [exists (1 - b0); auto|]. intros n. rewrite FF by auto. eexists. reflexivity.
      + intros u u' Hu. apply scale_same; auto. apply H1.
      + intros u u' (p & Lp & -> & ->). apply (scale_same (1 - b1)); [lra|]. split; auto. exists (squares p). rewrite np_sq_floats. split; auto.
        split; [unfold squares; rewrite map2_length; lia|]. intros i Hi. unfold squares. rewrite coord_mul by auto. apply Rle_0_sqr.
      + intros n u u' Hu. cbn [a_b1 cbo_cfg c_vscale]. rewrite FF by auto. apply scale_same; auto. pose proof (pow_lt_1 b1 n H1). apply Rlt_le, Rdiv_lt_0_compat; lra.
      + intros m m' v v' (p & Lp & -> & ->) [-> Hv]. destruct (quot_same p v Lp Hv) as (q & E1 & E2). exists q. cbn [a_eps]. auto.
    - intros o s y s2 y2. apply adam_frame.
    - intros [m v] [m' v'] [Hm Hv]. cbn [fst snd] in *. f_equal.
      + rewrite (entries_eq d (fun p => p) (fun p => p) _ _ ltac:(auto) Hm). apply map_id_arr.
      + assert (G : entries eq v v'). { eapply entries_impl; [|exact Hv]. intros a a' [-> _]. auto. } clear - G. induction G as [|r r' X X' Hr G IH]; auto. f_equal; auto. apply F2_eq; auto.
    - intros s s' E1 E2. assert (Z : nonneg_same (floats (repeat 0 d)) (floats (repeat 0 d))).
      { split; auto. exists (repeat 0 d). split; auto. split; [apply repeat_length|]. intros i Hi. unfold coord. rewrite nth_repeat. lra. }
      assert (Z' : img d (fun p => p) (floats (repeat 0 d)) (floats (repeat 0 d))) by (exists (repeat 0 d); rewrite repeat_length; auto).
      eapply (adam_attr_so (fun _ _ => True)); eauto. clear. induction x0 as [|r X IH]; cbn; constructor; auto. induction r; cbn; constructor; auto.
  Qed.
End Adam.
