(** * Energy shifts, translations and isometries of sessions of the variants *)
From Coq Require Import String List Arith Bool Reals Permutation Lia Lra.
From Verif Require Import Scalar Np NpFacts State Pdyn Exec TermSpec RVec RVecFacts Consensus ConsSpec ConsFacts PostProc Cbo CboSpec CboFacts
  TwinSpec TwinFacts SymFacts Memory MemSpec RegSched RegVar Variant VarSpec AdamSpec SimSpec SimNp SimFacts MemSymSpec SessSpec SymLaws VarSessSpec VarSym.
Import ListNotations.
Open Scope R_scope.

Lemma both_mono : forall A B C D (R R' : A -> B -> Prop) (S : C -> D -> Prop) r r', (forall a b, R a b -> R' a b) -> same_outcome (both R S) r r' -> same_outcome (both R' S) r r'.
Proof. intros A B C D R R' S r r' H. apply so_mono. intros a b [H1 H2]. split; auto. Qed.

Section Instances.
  Variables (f : vec -> fl R) (k : noise_model) (co : corr R) (b : nat) (partial cat : bool) (ks : list (crit R vec)) (save : bool) (d : nat).
  Variables (x0 : arr vec) (checked : bool) (alpha sigma lamda dt : fl R) (perm0 : nat -> list nat) (names : option (list string)) (extra : list trk) (sv : option nat).
  Variable (l : list (call (K := R) (V := vec))).
  Hypothesis Hks : Forall builtin ks.
  Hypothesis Hco : finite_corr co.
  Hypothesis Hf : finite_obj d f.
  Hypothesis Hs : sensible d b x0 alpha sigma lamda dt perm0 sv.
  Hypothesis Hl : sensible_calls d (length x0) (shape1 x0) l.
  Notation cf f pp ks := (cbo_cfg f k pp co b partial cat ks save).
  Notation session inner attr c x0 l := (var_session inner attr c x0 checked alpha sigma lamda dt perm0 names extra sv l).

  Section Shift.
    Variables (pp : vec -> vec) (h : R).
    Hypothesis Hpp : forall p, length p = d -> exists q, pp (floats p) = floats q /\ length q = d.
    Notation up := (fun v => add_energy h (f v)).
    Notation ks' := (map (image_crit (add_energy h)) ks).
    Notation same := (cbo_mapped (real_point d) (fun v => v) (fun v => v) (add_energy h)).

    Theorem mirror_shift : forall gc gr, (forall p, length p = d -> real_point d (gc (floats p))) -> (forall row v, In row x0 -> In v row -> real_point d (gr v)) ->
      same_outcome (both same (fun y y' => y' = y)) (session (mirror_inner gc) (mirror_attr gr) (cf f pp ks) x0 l) (session (mirror_inner gc) (mirror_attr gr) (cf up pp ks') x0 l).
    Proof.
      intros gc gr Hgc Hgr. rewrite <- (map_id_arr _ x0) at 2. rewrite <- (change_draws_id l) at 2.
      apply so_mono with (R := both same (fun y y' => y' = map (map (fun v : vec => v)) y)). { intros [a1 a2] [b1 b2] [E1 E2]. cbn in *. split; auto. cbn. rewrite E2. apply map_id_arr. }
      apply (generic_mirror f up k pp pp co b partial cat ks save d h (fun p => p) (fun p => p) (fun p => p)) with (j := fun p => p); auto; [apply shift_symmetry; auto| |].
      - intros p Hp. destruct (Hgc p Hp) as (q & E1 & E2). eauto.
      - intros row v H1 H2. destruct (Hgr row v H1 H2) as (q & E1 & E2). eauto.
    Qed.
    Theorem adam_shift : forall b0 b1 eps, 0 <= b0 < 1 -> 0 <= b1 < 1 -> 0 < eps ->
      same_outcome (both same (fun y y' => y' = y))
        (session (adam_inner np_sq np_quot (mkapar (Fin b0) (Fin b1) (Fin eps))) (adam_attr (floats (repeat 0 d))) (cf f pp ks) x0 l)
        (session (adam_inner np_sq np_quot (mkapar (Fin b0) (Fin b1) (Fin eps))) (adam_attr (floats (repeat 0 d))) (cf up pp ks') x0 l).
    Proof.
      intros b0 b1 eps H0 H1 He. rewrite <- (map_id_arr _ x0) at 2.
      apply (generic_adam f up k pp pp co b partial cat ks save d h (fun p => p)); auto. apply shift_symmetry; auto.
    Qed.
    Theorem dc_shift : forall (G : multi (K := R) (V := vec)) e, e <> 0 -> (forall p, length p = d -> real_point d (g_grad G (floats p))) ->
      (forall a p u w, length p = d -> length u = d -> g_solve G (Fin a) (floats p) (floats u) = Ok w -> real_point d w) ->
      same_outcome (both same (fun y y' => y' = y)) (session (dc_inner (Some G) (Fin e)) (fun _ => tt) (cf f pp ks) x0 l) (session (dc_inner (Some G) (Fin e)) (fun _ => tt) (cf up pp ks') x0 l).
    Proof.
      intros G e He Hg Hsol. rewrite <- (map_id_arr _ x0) at 2. rewrite <- (change_draws_id l) at 2.
      apply (generic_dc f up k pp pp co b partial cat ks save d h (fun p => p) (fun p => p) (fun p => p)); auto; [apply shift_symmetry; auto| |].
      - intros p Hp. destruct (Hg p Hp) as (q & E1 & E2). eauto.
      - intros a p u Lp Lu. pose proof (Hsol a p u) as H. destruct (g_solve G (Fin a) (floats p) (floats u)); cbn; auto.
    Qed.
    Theorem hyper_shift : forall (S : surface (K := R) (V := vec)), (forall p u, length p = d -> length u = d -> real_point d (h_tan S (floats p) (floats u))) ->
      (forall p, length p = d -> real_point d (h_proj S (floats p))) ->
      (forall t sg p u, length p = d -> length u = d -> real_point d (h_nc S (Fin t) (Fin sg) (floats p) (floats u))) ->
      same_outcome (both same (fun y y' => y' = y)) (session (hyper_inner S) (fun _ => tt) (cf f pp ks) x0 l) (session (hyper_inner S) (fun _ => tt) (cf up pp ks') x0 l).
    Proof.
      intros S Ht Hp Hn. rewrite <- (map_id_arr _ x0) at 2. rewrite <- (change_draws_id l) at 2.
      apply (generic_hyper f up k pp pp co b partial cat ks save d h (fun p => p) (fun p => p) (fun p => p)); auto; [apply shift_symmetry; auto| | |].
      - intros p u Lp Lu. destruct (Ht p u Lp Lu) as (q & E1 & E2). eauto.
      - intros p Lp. destruct (Hp p Lp) as (q & E1 & E2). eauto.
      - intros t sg p u Lp Lu. destruct (Hn t sg p u Lp Lu) as (q & E1 & E2). eauto.
    Qed.
    Theorem reg_shift : forall (f0 reg : vec -> fl R) (pow : fl R -> fl R) la (solve : option (fl R -> vec -> vec -> res vec)) e, finite_obj d f0 -> finite_obj d (fun v => pow (reg v)) ->
      (forall v, f v = fadd (f0 v) (fmul (Fin la) (pow (reg v)))) ->
      match solve with None => True | Some sf => e <> 0 /\ forall a p u w, length p = d -> length u = d -> sf (Fin a) (floats p) (floats u) = Ok w -> real_point d w end ->
      same_outcome (both same (fun y y' => y' = y)) (session (reg_inner (reg_call f0 reg pow) solve (Fin e)) (reg_attr (Fin la)) (cf f pp ks) x0 l)
        (session (reg_inner (reg_call (fun v => add_energy h (f0 v)) reg pow) solve (Fin e)) (reg_attr (Fin la)) (cf up pp ks') x0 l).
    Proof.
      intros f0 reg pow la solve e Hf0 Hr Hff Hsol. rewrite <- (map_id_arr _ x0) at 2. rewrite <- (change_draws_id l) at 2.
      apply (generic_reg f up k pp pp co b partial cat ks save d h (fun p => p) (fun p => p) (fun p => p)); auto; [apply shift_symmetry; auto| |].
      - intros p Lp. destruct (Hf0 p Lp) as [r E]. destruct (Hr p Lp) as [q E']. exists r, q. rewrite E. auto.
      - destruct solve as [sf|]; auto. destruct Hsol as [He Hsol]. split; auto. intros a p u Lp Lu. pose proof (Hsol a p u) as H. destruct (sf (Fin a) (floats p) (floats u)); cbn; auto.
    Qed.
  End Shift.

  Section Translation.
    Variables (f' : vec -> fl R) (t : list R) (pp pp' : vec -> vec).
    Hypothesis Ht : length t = d.
    Hypothesis Hff : forall p, length p = d -> f' (floats (vadd p t)) = f (floats p).
    Hypothesis Hpp : forall p, length p = d -> exists q, pp (floats p) = floats q /\ length q = d /\ pp' (floats (vadd p t)) = floats (vadd q t).
    Notation moved := (cbo_mapped (real_point d) (translate t) (fun v => v) (fun e => e)).
    Notation mx0 := (map (map (translate t)) x0).

    Theorem adam_translation : forall b0 b1 eps, 0 <= b0 < 1 -> 0 <= b1 < 1 -> 0 < eps ->
      same_outcome (both moved (fun y y' => y' = y))
        (session (adam_inner np_sq np_quot (mkapar (Fin b0) (Fin b1) (Fin eps))) (adam_attr (floats (repeat 0 d))) (cf f pp ks) x0 l)
        (session (adam_inner np_sq np_quot (mkapar (Fin b0) (Fin b1) (Fin eps))) (adam_attr (floats (repeat 0 d))) (cf f' pp' ks) mx0 l).
    Proof.
      intros b0 b1 eps H0 H1 He. eapply both_mono; [apply cbo_mapped_0|]. rewrite <- (image_crit_0 ks) at 2.
      apply (generic_adam f f' k pp pp' co b partial cat ks save d 0 (fun p => vadd p t)); auto; [apply translation_symmetry; eauto|]. intros p Hp. unfold translate. apply floats_add.
    Qed.
    Theorem dc_translation : forall (G G' : multi (K := R) (V := vec)) e, e <> 0 ->
      (forall p, length p = d -> real_point d (g_grad G (floats p)) /\ g_grad G' (floats (vadd p t)) = g_grad G (floats p)) ->
      (forall a p u, length p = d -> length u = d ->
        same_outcome (fun w w' => real_point d w /\ w' = w) (g_solve G (Fin a) (floats p) (floats u)) (g_solve G' (Fin a) (floats (vadd p t)) (floats u))) ->
      same_outcome (both moved (fun y y' => y' = y)) (session (dc_inner (Some G) (Fin e)) (fun _ => tt) (cf f pp ks) x0 l) (session (dc_inner (Some G') (Fin e)) (fun _ => tt) (cf f' pp' ks) mx0 l).
    Proof.
      intros G G' e He Hg Hsol. eapply both_mono; [apply cbo_mapped_0|]. rewrite <- (image_crit_0 ks) at 2. rewrite <- (change_draws_id l) at 2.
      apply (generic_dc f f' k pp pp' co b partial cat ks save d 0 (fun p => vadd p t) (fun p => p) (fun p => p)); auto; [apply translation_symmetry; eauto| |].
      - intros p Hp. unfold translate. apply floats_add.
      - intros p Hp. destruct (Hg p Hp) as ((q & E1 & E2) & E3). exists q. rewrite E3. auto.
    Qed.
    Theorem reg_translation : forall (f0 f0' reg reg' : vec -> fl R) (pow : fl R -> fl R) la (solve solve' : option (fl R -> vec -> vec -> res vec)) e, finite_obj d f0 -> finite_obj d (fun v => pow (reg v)) ->
      (forall v, f v = fadd (f0 v) (fmul (Fin la) (pow (reg v)))) -> (forall p, length p = d -> f0' (floats (vadd p t)) = f0 (floats p) /\ reg' (floats (vadd p t)) = reg (floats p)) ->
      match solve, solve' with
      | None, None => True
      | Some sf, Some sf' => e <> 0 /\ forall a p u, length p = d -> length u = d ->
          same_outcome (fun w w' => real_point d w /\ w' = translate t w) (sf (Fin a) (floats p) (floats u)) (sf' (Fin a) (floats (vadd p t)) (floats (vadd u t)))
      | _, _ => False end ->
      same_outcome (both moved (fun y y' => y' = y)) (session (reg_inner (reg_call f0 reg pow) solve (Fin e)) (reg_attr (Fin la)) (cf f pp ks) x0 l)
        (session (reg_inner (reg_call f0' reg' pow) solve' (Fin e)) (reg_attr (Fin la)) (cf f' pp' ks) mx0 l).
    Proof.
      intros f0 f0' reg reg' pow la solve solve' e Hf0 Hr Hfr Hfr' Hsol. eapply both_mono; [apply cbo_mapped_0|]. rewrite <- (image_crit_0 ks) at 2. rewrite <- (change_draws_id l) at 2.
      apply (generic_reg f f' k pp pp' co b partial cat ks save d 0 (fun p => vadd p t) (fun p => p) (fun p => p)); auto; [apply translation_symmetry; eauto| |].
      - intros p Hp. unfold translate. apply floats_add.
      - intros p Lp. destruct (Hf0 p Lp) as [r E]. destruct (Hr p Lp) as [q E']. destruct (Hfr' p Lp) as [E1 E2]. exists r, q. rewrite E1, E2, E. rewrite Rplus_0_r. auto.
    Qed.
  End Translation.

  Section Rotation.
    Variables (f' : vec -> fl R) (A : list (list R)) (pp pp' : vec -> vec).
    Notation tu p := (map (fun r => dot r p) A).
    Hypothesis HA : isometry d A.
    Hypothesis Hk : k <> NAniso.
    Hypothesis Hff : forall p, length p = d -> f' (floats (tu p)) = f (floats p).
    Hypothesis Hpp : forall p, length p = d -> exists q, pp (floats p) = floats q /\ length q = d /\ pp' (floats (tu p)) = floats (tu q).
    Notation turned := (cbo_mapped (real_point d) (rotate A) (rotate A) (fun e => e)).
    Notation tx0 := (map (map (rotate A)) x0).
    Notation tl := (map (change_draws (rotate A)) l).
    Let LA : forall p, length p = d -> length (lin A p) = d.
    Proof. intros p Hp. unfold lin. rewrite map_length. apply HA. Qed.

    Theorem mirror_rotation : forall gc gr gc' gr', (forall p, length p = d -> exists q, gc (floats p) = floats q /\ length q = d /\ gc' (floats (tu p)) = floats (tu q)) ->
      (forall row v, In row x0 -> In v row -> exists q, gr v = floats q /\ length q = d /\ gr' (rotate A v) = floats (tu q)) ->
      same_outcome (both turned (fun y y' => y' = map (map (rotate A)) y)) (session (mirror_inner gc) (mirror_attr gr) (cf f pp ks) x0 l) (session (mirror_inner gc') (mirror_attr gr') (cf f' pp' ks) tx0 tl).
    Proof.
      intros gc gr gc' gr' Hgc Hgr. eapply both_mono; [apply cbo_mapped_0|]. rewrite <- (image_crit_0 ks) at 2.
      apply (generic_mirror f f' k pp pp' co b partial cat ks save d 0 (lin A) (lin A) (lin A)) with (j := lin A); auto; try (intros; apply rotate_floats; fail); [apply rotation_symmetry; eauto|].
      intros y u Hy Hu. symmetry. apply lin_add. congruence.
    Qed.
    Theorem dc_rotation : forall (G G' : multi (K := R) (V := vec)) e, e <> 0 ->
      (forall p, length p = d -> exists q, g_grad G (floats p) = floats q /\ length q = d /\ g_grad G' (floats (tu p)) = floats (tu q)) ->
      (forall a p u, length p = d -> length u = d ->
        same_outcome (fun w w' => real_point d w /\ w' = rotate A w) (g_solve G (Fin a) (floats p) (floats u)) (g_solve G' (Fin a) (floats (tu p)) (floats (tu u)))) ->
      same_outcome (both turned (fun y y' => y' = y)) (session (dc_inner (Some G) (Fin e)) (fun _ => tt) (cf f pp ks) x0 l) (session (dc_inner (Some G') (Fin e)) (fun _ => tt) (cf f' pp' ks) tx0 tl).
    Proof.
      intros G G' e He Hg Hsol. eapply both_mono; [apply cbo_mapped_0|]. rewrite <- (image_crit_0 ks) at 2.
      apply (generic_dc f f' k pp pp' co b partial cat ks save d 0 (lin A) (lin A) (lin A)); auto; try (intros; apply rotate_floats; fail). apply rotation_symmetry; eauto.
    Qed.
    Theorem hyper_rotation : forall (S S' : surface (K := R) (V := vec)),
      (forall p u, length p = d -> length u = d -> exists q, h_tan S (floats p) (floats u) = floats q /\ length q = d /\ h_tan S' (floats (tu p)) (floats (tu u)) = floats (tu q)) ->
      (forall p, length p = d -> exists q, h_proj S (floats p) = floats q /\ length q = d /\ h_proj S' (floats (tu p)) = floats (tu q)) ->
      (forall t sg p u, length p = d -> length u = d -> exists q, h_nc S (Fin t) (Fin sg) (floats p) (floats u) = floats q /\ length q = d /\ h_nc S' (Fin t) (Fin sg) (floats (tu p)) (floats (tu u)) = floats (tu q)) ->
      same_outcome (both turned (fun y y' => y' = y)) (session (hyper_inner S) (fun _ => tt) (cf f pp ks) x0 l) (session (hyper_inner S') (fun _ => tt) (cf f' pp' ks) tx0 tl).
    Proof.
      intros S S' H1 H2 H3. eapply both_mono; [apply cbo_mapped_0|]. rewrite <- (image_crit_0 ks) at 2.
      apply (generic_hyper f f' k pp pp' co b partial cat ks save d 0 (lin A) (lin A) (lin A)); auto; try (intros; apply rotate_floats; fail); [apply rotation_symmetry; eauto|].
      intros a p _. symmetry. apply lin_scal.
    Qed.
    Theorem reg_rotation : forall (f0 f0' reg reg' : vec -> fl R) (pow : fl R -> fl R) la (solve solve' : option (fl R -> vec -> vec -> res vec)) e, finite_obj d f0 -> finite_obj d (fun v => pow (reg v)) ->
      (forall v, f v = fadd (f0 v) (fmul (Fin la) (pow (reg v)))) -> (forall p, length p = d -> f0' (floats (tu p)) = f0 (floats p) /\ reg' (floats (tu p)) = reg (floats p)) ->
      match solve, solve' with
      | None, None => True
      | Some sf, Some sf' => e <> 0 /\ forall a p u, length p = d -> length u = d ->
          same_outcome (fun w w' => real_point d w /\ w' = rotate A w) (sf (Fin a) (floats p) (floats u)) (sf' (Fin a) (floats (tu p)) (floats (tu u)))
      | _, _ => False end ->
      same_outcome (both turned (fun y y' => y' = y)) (session (reg_inner (reg_call f0 reg pow) solve (Fin e)) (reg_attr (Fin la)) (cf f pp ks) x0 l)
        (session (reg_inner (reg_call f0' reg' pow) solve' (Fin e)) (reg_attr (Fin la)) (cf f' pp' ks) tx0 tl).
    Proof.
      intros f0 f0' reg reg' pow la solve solve' e Hf0 Hr Hfr Hfr' Hsol. eapply both_mono; [apply cbo_mapped_0|]. rewrite <- (image_crit_0 ks) at 2.
      apply (generic_reg f f' k pp pp' co b partial cat ks save d 0 (lin A) (lin A) (lin A)); auto; try (intros; apply rotate_floats; fail); [apply rotation_symmetry; eauto|].
      intros p Lp. destruct (Hf0 p Lp) as [r E]. destruct (Hr p Lp) as [q E']. destruct (Hfr' p Lp) as [E1 E2]. exists r, q. unfold lin. rewrite E1, E2, E, Rplus_0_r. auto.
    Qed.
  End Rotation.
End Instances.
