(** * Coordinate maps relate CBO, CBOMemory and PSO with anisotropic or constant noise *)
From Coq Require Import String List Arith Bool Reals Permutation Lia Lra.
From Verif Require Import Scalar Np NpFacts State Pdyn PdynFacts PdynOk Exec TermSpec RVec RVecFacts Consensus ConsSpec ConsFacts PostProc Cbo CboSpec CboFacts AbsorbFacts
  TwinSpec TwinFacts SymFacts Memory MemSpec SimSpec SimNp SimFacts MemSymSpec SimMem SessSpec SimCbo SymLaws CoordSpec.
Import ListNotations.
Open Scope R_scope.

Lemma coord_map_length : forall m p, length (coord_map m p) = length m.
Proof. intros. apply map_length. Qed.
Lemma linear_length : forall m, length (linear_part m) = length m. Proof. intros. apply map_length. Qed.
Lemma selection_length : forall m, length (selection m) = length m. Proof. intros. apply map_length. Qed.
Lemma draw_length : forall k m, length (draw_image k m) = length m. Proof. intros [] m; apply map_length. Qed.
Lemma coord_image_floats : forall d m p, reads d m -> length p = d -> coord_image m (floats p) = floats (coord_map m p).
Proof.
  intros d m p Hm Hp. unfold coord_image, coord_map, floats. rewrite map_map. apply map_ext_in. intros t Ht.
  rewrite (nth_indep _ NaN (Fin 0)) by (rewrite map_length, Hp; apply Hm; auto). rewrite (map_nth Fin p 0). reflexivity.
Qed.
Lemma reads_linear : forall d m, reads d m -> reads d (linear_part m).
Proof. intros d m H t Ht. apply in_map_iff in Ht. destruct Ht as (u & <- & Hu). cbn. auto. Qed.
Lemma reads_draw : forall d k m, reads d m -> reads d (draw_image k m).
Proof. intros d k m H t Ht. destruct k; apply in_map_iff in Ht; destruct Ht as (u & <- & Hu); cbn; auto. Qed.

(** the j-th coordinate of the image *)
Lemma coord_map_nth : forall m p j t, nth_error m j = Some t -> coord j (coord_map m p) = fst (snd t) * coord (fst t) p + snd (snd t).
Proof.
  intros m p j t Hj. unfold coord, coord_map. apply nth_error_nth. exact (map_nth_error _ _ _ Hj).
Qed.
Lemma linear_nth : forall m p j t, nth_error m j = Some t -> coord j (coord_map (linear_part m) p) = fst (snd t) * coord (fst t) p.
Proof. intros m p j t Hj. erewrite (coord_map_nth _ _ j); [|exact (map_nth_error _ _ _ Hj)]. cbn. ring. Qed.
Lemma selection_nth : forall m p j t, nth_error m j = Some t -> coord j (coord_map (selection m) p) = coord (fst t) p.
Proof. intros m p j t Hj. erewrite (coord_map_nth _ _ j); [|exact (map_nth_error _ _ _ Hj)]. cbn. ring. Qed.
Lemma by_coordinates : forall (m : list coordinate) (u v : list R), length u = length m -> length v = length m -> (forall j t, In t m -> nth_error m j = Some t -> coord j u = coord j v) -> u = v.
Proof.
  intros m u v Lu Lv H. apply (coord_ext _ _ (length m)); auto. intros j Hj. destruct (nth_error m j) as [t|] eqn:E; [|apply nth_error_None in E; lia].
  apply (H j t); auto. eapply nth_error_In; eauto.
Qed.

Section Coord.
  Variables (f f' : vec -> fl R) (k : noise_model) (pp pp' : vec -> vec) (co : corr R) (b : nat) (partial cat : bool) (ks : list (crit R vec)) (save : bool).
  Variables (d : nat) (m : list coordinate) (phi chi lin : vec -> vec).
  Let g := coord_map m.
  Let Li := coord_map (linear_part m).
  Let hh := coord_map (draw_image k m).
  Let c := cbo_cfg f k pp co b partial cat ks save.
  Let c' := cbo_cfg f' k pp' co b partial cat ks save.
  Hypothesis Hm : reads d m.
  Hypothesis Hk : k <> NIso.
  Hypothesis Hks : Forall no_norm ks.
  Hypothesis Hco : finite_corr co.
  Hypothesis Hf : finite_obj d f.
  Hypothesis Hff : forall p, length p = d -> f' (floats (coord_map m p)) = f (floats p).
  Hypothesis Hpp : forall p, length p = d -> exists q, pp (floats p) = floats q /\ length q = d /\ pp' (floats (coord_map m p)) = floats (coord_map m q).
  Hypothesis Hphi : forall p, length p = d -> phi (floats p) = floats (g p).
  Hypothesis Hchi : forall p, length p = d -> chi (floats p) = floats (hh p).
  Hypothesis Hlin : forall p, length p = d -> lin (floats p) = floats (Li p).

  Let Q1 : forall p, length p = d -> length (g p) = length m. Proof. intros. apply coord_map_length. Qed.
  Let Q2 : forall p, length p = d -> length (hh p) = length m. Proof. intros. unfold hh. rewrite coord_map_length, draw_length. auto. Qed.
  Let Q3 : forall p, length p = d -> length (Li p) = length m. Proof. intros. unfold Li. rewrite coord_map_length, linear_length. auto. Qed.
  Let Q3' : forall p, length (Li p) = length m. Proof. intros. unfold Li. rewrite coord_map_length, linear_length. auto. Qed.
  Let Q5 : forall p, length p = d -> f' (floats (g p)) = add_energy 0 (f (floats p)). Proof. intros. rewrite add_energy_0. auto. Qed.
  Let Q6 : forall a E X, admissible a E -> ensemble (length E) d X -> gibbs_point a E (length m) (map g X) = g (gibbs_point a E d X).
  Proof.
    intros a E X HA HX. assert (HS := gsum_pos _ _ HA). apply (by_coordinates m); [apply gibbs_point_length|apply coord_map_length|].
    intros j t Ht Hj. unfold g at 2. rewrite (coord_map_nth _ _ _ _ Hj).
    assert (Lj : (j < length m)%nat) by (apply nth_error_Some; congruence). assert (Li0 : (fst t < d)%nat) by (apply Hm; auto).
    unfold gibbs_point, coord. rewrite !nth_map_seq by auto. unfold gibbs_mean. rewrite combine_map_r, map_map. cbn [fst snd].
    rewrite (Rsum_map_ext _ _ (fun q => fst (snd t) * (gibbs a (fst q) * coord (fst t) (snd q)) + snd (snd t) * gibbs a (fst q))).
    2:{ intros [e p] _. cbn [fst snd]. unfold g. rewrite (coord_map_nth _ _ _ _ Hj). ring. }
    rewrite Rsum_map_plus, !Rsum_map_scal. rewrite <- (map_map fst (gibbs a)), combine_map_fst by (symmetry; apply HX). field. lra.
  Qed.
  Let Q7 : forall x y, length x = d -> length y = d -> vsub (g x) (g y) = Li (vsub x y).
  Proof.
    intros x y Hx Hy. apply (by_coordinates m); [apply length_vsub; apply coord_map_length|apply Q3'|]. intros j t Ht Hj. unfold g, Li.
    rewrite coord_vsub, !(coord_map_nth _ _ _ _ Hj), (linear_nth _ _ _ _ Hj), coord_vsub by (rewrite ?coord_map_length; congruence). ring.
  Qed.
  Let Q8 : forall u v, length u = d -> length v = d -> Li (vadd u v) = vadd (Li u) (Li v).
  Proof.
    intros u v Hu Hv. apply (by_coordinates m); [apply Q3'|apply length_vadd; apply Q3'|]. intros j t Ht Hj. unfold Li.
    rewrite coord_vadd, !(linear_nth _ _ _ _ Hj), coord_vadd by (rewrite ?coord_map_length; congruence). ring.
  Qed.
  Let Q9 : forall a u, length u = d -> Li (vscal a u) = vscal a (Li u).
  Proof.
    intros a u Hu. apply (by_coordinates m); [apply Q3'|rewrite length_vscal; apply Q3'|]. intros j t Ht Hj. unfold Li.
    rewrite coord_vscal, !(linear_nth _ _ _ _ Hj), coord_vscal. ring.
  Qed.
  Let Q10 : forall x u, length x = d -> length u = d -> vadd (g x) (Li u) = g (vadd x u).
  Proof.
    intros x u Hx Hu. apply (by_coordinates m); [apply length_vadd; [apply coord_map_length|apply Q3']|apply coord_map_length|]. intros j t Ht Hj. unfold g, Li.
    rewrite coord_vadd, !(coord_map_nth _ _ _ _ Hj), (linear_nth _ _ _ _ Hj), coord_vadd by (rewrite ?coord_map_length, ?linear_length; congruence). ring.
  Qed.
  Let Q11 : forall dt u z, length u = d -> length z = d -> rnoise k dt (Li u) (hh z) = Li (rnoise k dt u z).
  Proof.
    intros dt u z Hu Hz. apply (by_coordinates m); [apply length_rnoise; auto|apply Q3'|].
    intros j t Ht Hj. unfold Li at 2. rewrite (linear_nth _ _ _ _ Hj). unfold rnoise, hh, draw_image. rewrite !coord_vscal. destruct k; [| congruence|].
    - rewrite (linear_nth _ _ _ _ Hj). ring.
    - unfold coord. rewrite !(nth_map2 _ _ _ Rmult _ _ _ 0 0 0); try (rewrite ?coord_map_length, ?selection_length, ?Q3'; congruence || (apply nth_error_Some; congruence) || (rewrite ?Hz, ?Hu; apply Hm; auto)).
      fold (coord j (coord_map (selection m) z)) (coord j (Li u)). unfold Li. rewrite (linear_nth _ _ _ _ Hj), (selection_nth _ _ _ _ Hj). unfold coord. ring.
  Qed.
  Let HC : Forall2 (crit_related (eimg 0) (fun _ _ => True)) ks ks.
  Proof.
    rewrite Forall_forall in Hks. clear c c'. induction ks as [|q l IH]; constructor; [|apply IH; intros; apply Hks; cbn; auto].
    specialize (Hks q (or_introl eq_refl)). destruct q; cbn in *; try contradiction; auto. intros e e' [-> _]. rewrite add_energy_0. auto.
  Qed.
  Let weaken : forall s s', state_related (fun v v' => real_point d v /\ v' = phi v) (fun v v' => real_point d v /\ v' = lin v) (fun e e' => e' = add_energy 0 e) eq (fun _ _ => True) s s' ->
    mapped_but_norms (real_point d) phi lin s s'.
  Proof. intros s s' H. eapply related_impl; [..|exact H]; auto. intros a a' ->. apply add_energy_0. Qed.

  Theorem coord_mem : forall kd x0 checked alpha sigma lamda dt perm0 names extra sv l, sensible d b x0 alpha sigma lamda dt perm0 sv ->
    finite_calls kd d (length x0) (shape1 x0) dt l ->
    same_outcome (mem_mapped_but_norms (real_point d) phi lin)
      (mem_session kd c x0 checked alpha sigma lamda dt perm0 names extra sv l)
      (mem_session kd c' (map (map phi) x0) checked alpha sigma lamda dt perm0 names extra sv (map (map_draws chi) l)).
  Proof.
    intros. eapply so_mono; [|eapply (sym_session f f' k pp pp' co b partial cat ks save d (length m) 0 g hh Li (fun _ _ => True) ks); eauto].
    intros a a' [M1 M2]. split; auto.
  Qed.
  Theorem coord_cbo : forall x0 checked alpha sigma lamda dt perm0 names extra sv l, sensible d b x0 alpha sigma lamda dt perm0 sv ->
    sensible_calls d (length x0) (shape1 x0) l ->
    same_outcome (mapped_but_norms (real_point d) phi lin)
      (cbo_session c x0 checked alpha sigma lamda dt perm0 names extra sv l)
      (cbo_session c' (map (map phi) x0) checked alpha sigma lamda dt perm0 names extra sv (map (change_draws chi) l)).
  Proof.
    intros. eapply so_mono; [exact weaken|eapply (sym_cbo_session f f' k pp pp' co b partial cat ks save d (length m) 0 g hh Li (fun _ _ => True) ks); eauto].
  Qed.
End Coord.

Lemma nth_firstn_lt : forall (p : list R) i d a, (i < d)%nat -> nth i (firstn d p) a = nth i p a.
Proof. induction p as [|x p IH]; intros i [|d] a H; try lia; [cbn; destruct i; auto|]. cbn [firstn]. destruct i; cbn; auto. apply IH. lia. Qed.

(** keeping the first d coordinates *)
Definition keep (d : nat) : list coordinate := map (fun i => (i, (1, 0))) (seq 0 d).
Lemma keep_reads : forall d e, reads (d + e) (keep d).
Proof. intros d e t Ht. apply in_map_iff in Ht. destruct Ht as (i & <- & Hi). apply in_seq in Hi. cbn. lia. Qed.
Lemma keep_map : forall d p, (d <= length p)%nat -> coord_map (keep d) p = firstn d p.
Proof.
  intros d p H. apply (coord_ext _ _ d).
  - rewrite coord_map_length. unfold keep. rewrite map_length, seq_length. auto.
  - apply firstn_length_le. auto.
  - intros i Hi. rewrite (coord_map_nth _ _ _ (i, (1, 0))).
    + cbn [fst snd]. unfold coord. rewrite nth_firstn_lt by auto. ring.
    + unfold keep. apply (map_nth_error (fun j => (j, (1, 0))) i). rewrite nth_error_nth' with (d := 0%nat) by (rewrite seq_length; auto). rewrite seq_nth by auto. auto.
Qed.
Lemma keep_linear : forall d, linear_part (keep d) = keep d.
Proof. intros. unfold linear_part, keep. rewrite map_map. reflexivity. Qed.
Lemma keep_selection : forall d, selection (keep d) = keep d.
Proof. intros. unfold selection, keep. rewrite map_map. reflexivity. Qed.
Lemma keep_draw : forall k d, draw_image k (keep d) = keep d.
Proof. intros [] d; [apply keep_linear|apply keep_linear|apply keep_selection]. Qed.

Theorem coordinates_mem : forall kd (f f' : vec -> fl R) k (pp pp' : vec -> vec) co b partial cat (ks : list (crit R vec)) save d m, reads d m -> k <> NIso -> Forall no_norm ks -> finite_corr co -> finite_obj d f ->
  (forall p, length p = d -> f' (floats (coord_map m p)) = f (floats p)) ->
  (forall p, length p = d -> exists q, pp (floats p) = floats q /\ length q = d /\ pp' (floats (coord_map m p)) = floats (coord_map m q)) ->
  forall x0 checked alpha sigma lamda dt perm0 names extra sv l, sensible d b x0 alpha sigma lamda dt perm0 sv -> finite_calls kd d (length x0) (shape1 x0) dt l ->
  same_outcome (mem_mapped_but_norms (real_point d) (coord_image m) (coord_image (linear_part m)))
    (mem_session kd (cbo_cfg f k pp co b partial cat ks save) x0 checked alpha sigma lamda dt perm0 names extra sv l)
    (mem_session kd (cbo_cfg f' k pp' co b partial cat ks save) (map (map (coord_image m)) x0) checked alpha sigma lamda dt perm0 names extra sv (map (map_draws (coord_image (draw_image k m))) l)).
Proof.
  intros. apply coord_mem with (m := m); auto; intros; apply (coord_image_floats d); auto using reads_linear, reads_draw.
Qed.
Theorem coordinates_cbo : forall (f f' : vec -> fl R) k (pp pp' : vec -> vec) co b partial cat (ks : list (crit R vec)) save d m, reads d m -> k <> NIso -> Forall no_norm ks -> finite_corr co -> finite_obj d f ->
  (forall p, length p = d -> f' (floats (coord_map m p)) = f (floats p)) ->
  (forall p, length p = d -> exists q, pp (floats p) = floats q /\ length q = d /\ pp' (floats (coord_map m p)) = floats (coord_map m q)) ->
  forall x0 checked alpha sigma lamda dt perm0 names extra sv l, sensible d b x0 alpha sigma lamda dt perm0 sv -> sensible_calls d (length x0) (shape1 x0) l ->
  same_outcome (mapped_but_norms (real_point d) (coord_image m) (coord_image (linear_part m)))
    (cbo_session (cbo_cfg f k pp co b partial cat ks save) x0 checked alpha sigma lamda dt perm0 names extra sv l)
    (cbo_session (cbo_cfg f' k pp' co b partial cat ks save) (map (map (coord_image m)) x0) checked alpha sigma lamda dt perm0 names extra sv (map (change_draws (coord_image (draw_image k m))) l)).
Proof.
  intros. apply coord_cbo with (m := m); auto; intros; apply (coord_image_floats d); auto using reads_linear, reads_draw.
Qed.

Lemma keep_floats : forall d e p, length p = (d + e)%nat -> firstn d (floats p) = floats (coord_map (keep d) p).
Proof. intros d e p Hp. rewrite keep_map by lia. unfold floats. apply firstn_map. Qed.
Lemma keep_length : forall d e (p : list R), length p = (d + e)%nat -> length (firstn d p) = d.
Proof. intros. apply firstn_length_le. lia. Qed.

Theorem irrelevant_mem : forall kd (f f' : vec -> fl R) k (pp pp' : vec -> vec) co b partial cat (ks : list (crit R vec)) save d e, k <> NIso -> Forall no_norm ks -> finite_corr co -> finite_obj d f' ->
  (forall p, length p = (d + e)%nat -> f (floats p) = f' (floats (firstn d p))) ->
  (forall p, length p = (d + e)%nat -> exists q, pp (floats p) = floats q /\ length q = (d + e)%nat /\ pp' (floats (firstn d p)) = floats (firstn d q)) ->
  forall x0 checked alpha sigma lamda dt perm0 names extra sv l, sensible (d + e) b x0 alpha sigma lamda dt perm0 sv -> finite_calls kd (d + e) (length x0) (shape1 x0) dt l ->
  same_outcome (mem_mapped_but_norms (real_point (d + e)) (firstn d) (firstn d))
    (mem_session kd (cbo_cfg f k pp co b partial cat ks save) x0 checked alpha sigma lamda dt perm0 names extra sv l)
    (mem_session kd (cbo_cfg f' k pp' co b partial cat ks save) (map (map (firstn d)) x0) checked alpha sigma lamda dt perm0 names extra sv (map (map_draws (firstn d)) l)).
Proof.
  intros kd f f' k pp pp' co b partial cat ks save d e Hk Hks Hco Hf Hff Hpp. intros. apply coord_mem with (m := keep d); auto using keep_reads; rewrite ?keep_draw, ?keep_linear; try (apply keep_floats).
  - intros p Hp. rewrite (Hff p Hp). apply Hf. eapply keep_length; eauto.
  - intros p Hp. rewrite keep_map by lia. symmetry. auto.
  - intros p Hp. destruct (Hpp p Hp) as (q & Q1 & Q2 & Q3). exists q. rewrite !keep_map by lia. auto.
Qed.
Theorem irrelevant_cbo : forall (f f' : vec -> fl R) k (pp pp' : vec -> vec) co b partial cat (ks : list (crit R vec)) save d e, k <> NIso -> Forall no_norm ks -> finite_corr co -> finite_obj d f' ->
  (forall p, length p = (d + e)%nat -> f (floats p) = f' (floats (firstn d p))) ->
  (forall p, length p = (d + e)%nat -> exists q, pp (floats p) = floats q /\ length q = (d + e)%nat /\ pp' (floats (firstn d p)) = floats (firstn d q)) ->
  forall x0 checked alpha sigma lamda dt perm0 names extra sv l, sensible (d + e) b x0 alpha sigma lamda dt perm0 sv -> sensible_calls (d + e) (length x0) (shape1 x0) l ->
  same_outcome (mapped_but_norms (real_point (d + e)) (firstn d) (firstn d))
    (cbo_session (cbo_cfg f k pp co b partial cat ks save) x0 checked alpha sigma lamda dt perm0 names extra sv l)
    (cbo_session (cbo_cfg f' k pp' co b partial cat ks save) (map (map (firstn d)) x0) checked alpha sigma lamda dt perm0 names extra sv (map (change_draws (firstn d)) l)).
Proof.
  intros f f' k pp pp' co b partial cat ks save d e Hk Hks Hco Hf Hff Hpp. intros. apply coord_cbo with (m := keep d); auto using keep_reads; rewrite ?keep_draw, ?keep_linear; try (apply keep_floats).
  - intros p Hp. rewrite (Hff p Hp). apply Hf. eapply keep_length; eauto.
  - intros p Hp. rewrite keep_map by lia. symmetry. auto.
  - intros p Hp. destruct (Hpp p Hp) as (q & Q1 & Q2 & Q3). exists q. rewrite !keep_map by lia. auto.
Qed.
