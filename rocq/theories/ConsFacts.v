(** * Proofs on the weighted mean *)
From Coq Require Import List Arith Bool Reals Permutation Lia Lra.
From Verif Require Import Scalar Np NpFacts RVec RVecFacts Consensus ConsSpec RFacts.
Import ListNotations.
Open Scope R_scope.

Lemma fsum_fin : forall l, fsum (map Fin l) = Fin (Rsum l).
Proof. induction l; cbn; auto. unfold fsum in IHl. rewrite IHl. reflexivity. Qed.

Lemma gibbs_nonneg : forall a e, 0 <= gibbs a e.
Proof. destruct e; cbn; try lra. left; apply exp_pos. Qed.

Lemma fexp_weight : forall a e, (exists x, e = Fin x) \/ (e = PInf /\ 0 < a) ->
  fexp (fmul (fopp (Fin a)) e) = Fin (gibbs a e).
Proof.
  intros a e [(x & ->)|(-> & H)]; cbn; auto. unfold inf_sign. cbn.
  replace (Rltb 0 (- a)) with false by (symmetry; apply Rltb_false; lra).
  replace (Rltb (- a) 0) with true by (symmetry; apply Rltb_true; lra). reflexivity.
Qed.

Lemma fexp_weight_sub : forall a e L, 0 < L -> (exists x, e = Fin x) \/ (e = PInf /\ 0 < a) ->
  fexp (fsub (fmul (fopp (Fin a)) e) (Fin (ln L))) = Fin (gibbs a e / L).
Proof.
  intros a e L HL [(x & ->)|(-> & H)]; cbn.
  - f_equal. unfold Rminus. rewrite exp_plus, exp_Ropp, exp_ln by auto. reflexivity.
  - unfold inf_sign. cbn.
    replace (Rltb 0 (- a)) with false by (symmetry; apply Rltb_false; lra).
    replace (Rltb (- a) 0) with true by (symmetry; apply Rltb_true; lra). cbn. f_equal. lra.
Qed.

Lemma gsum_pos : forall a E, admissible a E -> 0 < Rsum (map (gibbs a) E).
Proof.
  intros a E [_ (x & Hx)]. apply Rsum_map_pos with (y := Fin x); auto.
  - intros; apply gibbs_nonneg.
  - apply exp_pos.
Qed.

Lemma coeffs_char : forall a E, admissible a E ->
  coeffs E (Fin a) = map Fin (map (fun e => gibbs a e / Rsum (map (gibbs a) E)) E).
Proof.
  intros a E HA. assert (HS := gsum_pos _ _ HA). destruct HA as [HA _].
  unfold coeffs, softmax, logsumexp. rewrite !map_map.
  rewrite (map_ext_in (fun x => fexp (fmul (fopp (Fin a)) x)) (fun x => Fin (gibbs a x))).
  - rewrite <- (map_map (gibbs a) Fin), fsum_fin. unfold flog.
    replace (Rltb 0 (Rsum (map (gibbs a) E))) with true by (symmetry; apply Rltb_true; auto).
    apply map_ext_in. intros e He. apply fexp_weight_sub; auto.
  - intros e He. apply fexp_weight; auto.
Qed.

Lemma column_floats : forall N d X i, ensemble N d X -> (i < d)%nat ->
  column i (map floats X) = map Fin (map (coord i) X).
Proof.
  intros N d X i [_ H] Hi. unfold column. rewrite !map_map. apply map_ext_in. intros p Hp.
  unfold floats, coord. rewrite nth_map with (da := 0); auto. rewrite (H p Hp). auto.
Qed.

Lemma dim_floats : forall N d X, ensemble N d X -> (1 <= N)%nat -> dim (map floats X) = d.
Proof.
  intros N d X [HN H] H1. destruct X; cbn in *; [lia|]. unfold dim. cbn. unfold floats. rewrite map_length. apply H. auto.
Qed.

Lemma combine_map_fst : forall A B (l : list A) (k : list B), length l = length k -> map fst (combine l k) = l.
Proof. induction l; destruct k; cbn; intros; try lia; auto. rewrite IHl; auto. Qed.
Lemma combine_map_snd : forall A B (l : list A) (k : list B), length l = length k -> map snd (combine l k) = k.
Proof. induction l; destruct k; cbn; intros; try lia; auto. rewrite IHl; auto. Qed.

Lemma map2_combine_r : forall A B T U V (f : A -> B -> T) (g : U -> A) (h : V -> B) X E,
  map2 f (map g X) (map h E) = map (fun q => f (g (snd q)) (h (fst q))) (combine E X).
Proof. induction X; destruct E; cbn; auto. rewrite IHX. auto. Qed.

Lemma wmean_floats : forall ws N d X, ensemble N d X -> (1 <= N)%nat -> 
  wmean (map Fin ws) (map floats X) = floats (map (fun i => Rsum (map2 Rmult (map (coord i) X) ws)) (seq 0 d)).
Proof.
  intros ws N d X HX HN. unfold wmean. rewrite (dim_floats _ _ _ HX HN). unfold floats at 2. rewrite map_map.
  apply map_ext_in. intros i Hi. apply in_seq in Hi.
  rewrite (column_floats _ _ _ _ HX) by lia. rewrite map2_map. cbn.
  rewrite <- map_map2 with (f := Rmult) (g := Fin). apply fsum_fin.
Qed.

Lemma admissible_len : forall a E, admissible a E -> (1 <= length E)%nat.
Proof. intros a E [_ (x & H)]. destruct E; [destruct H|cbn; lia]. Qed.

(** C29 *)
Lemma consensus_gibbs : forall a E d X, admissible a E -> ensemble (length E) d X ->
  cc_default E (map floats X) (Fin a) = [floats (gibbs_point a E d X)].
Proof.
  intros a E d X HA HX. unfold cc_default. f_equal. rewrite coeffs_char by auto.
  rewrite (wmean_floats _ _ _ _ HX) by (apply (admissible_len _ _ HA)). f_equal.
  unfold gibbs_point. apply map_ext_in. intros i _. unfold gibbs_mean.
  destruct HX as [HL _].
  rewrite map2_combine_r, <- Rsum_map_div. apply Rsum_map_ext. intros q _. unfold Rdiv. ring.
Qed.

Lemma weights_spec : forall a E, admissible a E -> exists ws,
  coeffs E (Fin a) = map Fin ws /\ length ws = length E /\ Rsum ws = 1 /\
  (forall n e w, nth_error E n = Some e -> nth_error ws n = Some w ->
     match e with Fin _ => 0 < w | _ => w = 0 end) /\
  (forall n k e1 e2 w1 w2, 0 < a -> nth_error E n = Some (Fin e1) -> nth_error E k = Some (Fin e2) ->
     nth_error ws n = Some w1 -> nth_error ws k = Some w2 -> e1 < e2 -> w2 < w1).
Proof.
  intros a E HA. assert (HS := gsum_pos _ _ HA).
  exists (map (fun e => gibbs a e / Rsum (map (gibbs a) E)) E).
  split; [apply coeffs_char; auto|]. split; [apply map_length|]. split; [|split].
  - rewrite Rsum_map_div. field. lra.
  - intros n e w He Hw. rewrite nth_error_map, He in Hw. cbn in Hw. injection Hw as <-.
    destruct e; cbn; try (unfold Rdiv; lra). apply Rdiv_lt_0_compat; auto. apply exp_pos.
  - intros n k e1 e2 w1 w2 Ha H1 H2 Hw1 Hw2 Hlt. rewrite nth_error_map, H1 in Hw1. rewrite nth_error_map, H2 in Hw2. cbn in Hw1, Hw2.
    injection Hw1 as <-. injection Hw2 as <-. unfold Rdiv. apply Rmult_lt_compat_r; [apply Rinv_0_lt_compat; auto|].
    apply exp_increasing. nra.
Qed.

Lemma check_never_raises : forall a E, admissible a E -> check_raises (coeffs E (Fin a)) = false.
Proof.
  intros a E HA. destruct (weights_spec a E HA) as (ws & -> & _ & H1 & _).
  unfold check_raises. rewrite fsum_fin, H1. cbn. replace (1 - 1) with 0 by lra. rewrite Rabs_R0. apply Rltb_false. lra.
Qed.

(** all energies infinite: no number comes out *)
Lemma fsum_nan : forall l, In NaN l -> fsum l = NaN.
Proof.
  induction l; cbn; [intros []|intros [H|H]].
  - subst. reflexivity.
  - unfold fsum in IHl. rewrite IHl by auto. destruct a; reflexivity.
Qed.

Lemma consensus_all_infinite : forall a E x c, 0 < a -> (forall e, In e E -> e = PInf) ->
  length x = length E -> (1 <= length E)%nat -> In c (cc_default E x (Fin a)) ->
  forall v, In v c -> v = NaN.
Proof.
  intros a E x c Ha HE HL HN Hc v Hv. unfold cc_default in Hc. destruct Hc as [<-|[]].
  unfold wmean in Hv. apply in_map_iff in Hv. destruct Hv as (i & <- & Hi).
  assert (HC : coeffs E (Fin a) = map (fun _ => NaN) E).
  { unfold coeffs, softmax, logsumexp. rewrite !map_map.
    assert (HW : forall e, In e E -> fmul (fopp (Fin a)) e = NInf).
    { intros e He. rewrite (HE e He). cbn. unfold inf_sign. cbn.
      replace (Rltb 0 (- a)) with false by (symmetry; apply Rltb_false; lra).
      replace (Rltb (- a) 0) with true by (symmetry; apply Rltb_true; lra). reflexivity. }
    rewrite (map_ext_in (fun e => fexp (fmul (fopp (Fin a)) e)) (fun _ => Fin 0)) by (intros e He; rewrite HW; auto).
    rewrite <- (map_map (fun _ => 0) Fin), fsum_fin. rewrite Rsum_map_0 by auto. cbn.
    replace (Rltb 0 0) with false by (symmetry; apply Rltb_false; lra).
    apply map_ext_in. intros e He. change (fopp (Fin a)) with (@Fin R (- a)) in HW. cbn in HW. rewrite (HW e He). reflexivity. }
  rewrite HC. apply fsum_nan. destruct E as [|e E]; cbn in *; [lia|]. destruct x as [|p x]; cbn in *; [lia|].
  left. destruct (nth i p NaN); reflexivity.
Qed.

(** ** Hull *)
Lemma dot_gibbs_point : forall a E d X v, admissible a E -> ensemble (length E) d X -> length v = d ->
  dot v (gibbs_point a E d X) * Rsum (map (gibbs a) E) =
  Rsum (map (fun q => gibbs a (fst q) * dot v (snd q)) (combine E X)).
Proof.
  intros a E d X v HA HX Hv. assert (HS := gsum_pos _ _ HA).
  rewrite (dot_sum v _ d) by (auto; unfold gibbs_point; rewrite map_length, seq_length; auto).
  rewrite (Rsum_map_ext _ _ (fun i => Rsum (map (fun q => gibbs a (fst q) * (nth i v 0 * coord i (snd q))) (combine E X)) / Rsum (map (gibbs a) E))).
  - rewrite Rsum_map_div. unfold Rdiv. rewrite Rmult_assoc, Rinv_l by lra. rewrite Rmult_1_r.
    rewrite (Rsum_swap _ _ (fun i q => gibbs a (fst q) * (nth i v 0 * coord i (snd q)))).
    apply Rsum_map_ext. intros [e p] Hq. cbn [fst snd]. rewrite Rsum_map_scal. f_equal.
    rewrite (dot_sum v p d); auto. apply HX. apply in_combine_r in Hq. auto.
  - intros i Hi. apply in_seq in Hi. unfold gibbs_point. rewrite nth_map_seq by lia. unfold gibbs_mean.
    unfold Rdiv. rewrite <- Rmult_assoc. f_equal. rewrite <- Rsum_map_scal. apply Rsum_map_ext. intros; ring.
Qed.

Lemma combine_nth_error : forall A B (l : list A) (k : list B) q, In q (combine l k) ->
  exists n, nth_error l n = Some (fst q) /\ nth_error k n = Some (snd q).
Proof.
  induction l; destruct k; intros q H; try destruct H.
  - subst. exists 0%nat. auto.
  - destruct (IHl _ _ H) as (n & H1 & H2). exists (S n). auto.
Qed.

Lemma hull : forall a E d X v b, admissible a E -> ensemble (length E) d X -> length v = d ->
  (forall n e p, nth_error E n = Some (Fin e) -> nth_error X n = Some p -> dot v p <= b) ->
  dot v (gibbs_point a E d X) <= b.
Proof.
  intros a E d X v b HA HX Hv H. assert (HS := gsum_pos _ _ HA).
  apply Rmult_le_reg_r with (1 := HS). rewrite dot_gibbs_point by auto.
  rewrite <- Rsum_map_scal.
  replace (Rsum (map (fun e => b * gibbs a e) E)) with (Rsum (map (fun q => b * gibbs a (fst q)) (combine E X))).
  - apply Rsum_map_le. intros q Hq. destruct (combine_nth_error _ _ _ _ _ Hq) as (n & H1 & H2).
    destruct q as [e p]; cbn [fst snd] in *. destruct e; cbn; try lra.
    assert (dot v p <= b) by (apply (H n k p); auto). assert (0 < exp (- a * k)) by apply exp_pos. nra.
  - destruct HX as [HL _]. rewrite <- (combine_map_fst _ _ E X) at 2 by auto. rewrite map_map. auto.
Qed.

(** the i-th unit vector *)
Definition unitv (d i : nat) : list R := map (fun j => if Nat.eqb i j then 1 else 0) (seq 0 d).
Lemma dot_unitv : forall d i p, length p = d -> (i < d)%nat -> dot (unitv d i) p = coord i p.
Proof.
  intros d i p Hp Hi. rewrite (dot_sum _ p d) by (auto; unfold unitv; rewrite map_length, seq_length; auto).
  unfold unitv, coord.
  rewrite (Rsum_map_ext _ _ (fun j => if Nat.eqb i j then nth i p 0 else 0)).
  - assert (G : forall k n, (n <= i < n + k)%nat -> Rsum (map (fun j => if Nat.eqb i j then nth i p 0 else 0) (seq n k)) = nth i p 0).
    { induction k; intros n Hn; [lia|]. cbn [seq map]. rewrite Rsum_cons. destruct (Nat.eqb_spec i n).
      - rewrite Rsum_map_0; [lra|]. intros j Hj. apply in_seq in Hj. destruct (Nat.eqb_spec i j); [lia|auto].
      - rewrite IHk by lia. lra. }
    apply G. lia.
  - intros j Hj. apply in_seq in Hj. rewrite nth_map_seq by lia. destruct (Nat.eqb_spec i j); subst; lra.
Qed.
Lemma unitv_length : forall d i, length (unitv d i) = d.
Proof. intros; unfold unitv; rewrite map_length, seq_length; auto. Qed.

Lemma gibbs_point_length : forall a E d X, length (gibbs_point a E d X) = d.
Proof. intros; unfold gibbs_point; rewrite map_length, seq_length; auto. Qed.

Lemma hull_coord : forall a E d X i lo hi, admissible a E -> ensemble (length E) d X -> (i < d)%nat ->
  (forall p, In p X -> lo <= coord i p <= hi) ->
  lo <= coord i (gibbs_point a E d X) <= hi.
Proof.
  intros a E d X i lo hi HA HX Hi H.
  assert (L := gibbs_point_length a E d X).
  split.
  - apply Ropp_le_cancel. rewrite <- (dot_unitv d i) by auto.
    replace (- dot (unitv d i) (gibbs_point a E d X)) with (dot (vscal (-1) (unitv d i)) (gibbs_point a E d X)) by (rewrite dot_vscal_l; lra).
    apply hull; auto; [unfold vscal; rewrite map_length; apply unitv_length|].
    intros n e p H1 H2. apply nth_error_In in H2. rewrite dot_vscal_l, dot_unitv; auto; [|apply HX; auto]. specialize (H p H2). lra.
  - rewrite <- (dot_unitv d i) by auto. apply hull; auto; [apply unitv_length|].
    intros n e p H1 H2. apply nth_error_In in H2. rewrite dot_unitv; auto; [|apply HX; auto]. apply (H p H2).
Qed.

Lemma hull_single : forall a E d X p, admissible a E -> ensemble (length E) d X -> length p = d ->
  (forall q, In q X -> q = p) -> gibbs_point a E d X = p.
Proof.
  intros a E d X p HA HX Hp H. apply list_nth_ext with (d := 0) (n := d); auto; [apply gibbs_point_length|].
  intros i Hi. assert (coord i p <= coord i (gibbs_point a E d X) <= coord i p).
  { apply hull_coord; auto. intros q Hq. rewrite (H q Hq). lra. }
  unfold coord in *. lra.
Qed.

(** ** Invariances *)
Lemma gibbs_shift : forall a k e, gibbs a (fadd e (Fin k)) = exp (- a * k) * gibbs a e.
Proof. destruct e; cbn; try lra. rewrite <- exp_plus. f_equal. ring. Qed.

Lemma admissible_shift : forall a E k, admissible a E -> admissible a (map (fun e => fadd e (Fin k)) E).
Proof.
  intros a E k [H (x & Hx)]. split.
  - intros e He. apply in_map_iff in He. destruct He as (e' & <- & He'). destruct (H _ He') as [(y & ->)|(-> & ?)].
    + left. cbn. eauto.
    + right. auto.
  - exists (x + k). apply in_map_iff. exists (Fin x). auto.
Qed.

Lemma combine_map_l : forall A B C (f : A -> C) (l : list A) (k : list B), combine (map f l) k = map (fun q => (f (fst q), snd q)) (combine l k).
Proof. induction l; destruct k; cbn; auto. rewrite IHl. auto. Qed.
Lemma combine_map_r : forall A B C (f : B -> C) (l : list A) (k : list B), combine l (map f k) = map (fun q => (fst q, f (snd q))) (combine l k).
Proof. induction l; destruct k; cbn; auto. rewrite IHl. auto. Qed.

Lemma gibbs_point_shift : forall a E k d X, admissible a E ->
  gibbs_point a (map (fun e => fadd e (Fin k)) E) d X = gibbs_point a E d X.
Proof.
  intros a E k d X HA. apply map_ext. intros i. unfold gibbs_mean. assert (HS := gsum_pos _ _ HA).
  rewrite combine_map_l, !map_map. cbn [fst snd].
  rewrite (Rsum_map_ext _ (fun q => gibbs a (fadd (fst q) (Fin k)) * _) (fun q => exp (- a * k) * (gibbs a (fst q) * coord i (snd q)))) by (intros; rewrite gibbs_shift; ring).
  rewrite (Rsum_map_ext _ (fun q => gibbs a (fadd q (Fin k))) (fun q => exp (- a * k) * gibbs a q)) by (intros; rewrite gibbs_shift; ring).
  rewrite !Rsum_map_scal. assert (0 < exp (- a * k)) by apply exp_pos. field. lra.
Qed.

Lemma shift_invariant : forall a E k d X, admissible a E -> ensemble (length E) d X ->
  cc_default (map (fun e => fadd e (Fin k)) E) (map floats X) (Fin a) = cc_default E (map floats X) (Fin a).
Proof.
  intros. rewrite (consensus_gibbs a E d), (consensus_gibbs a _ d); auto.
  - rewrite gibbs_point_shift; auto.
  - apply admissible_shift; auto.
  - rewrite map_length; auto.
Qed.

Lemma perm_invariant : forall a E E' d X X', admissible a E -> ensemble (length E) d X -> ensemble (length E') d X' ->
  Permutation (combine E X) (combine E' X') ->
  cc_default E' (map floats X') (Fin a) = cc_default E (map floats X) (Fin a).
Proof.
  intros a E E' d X X' HA HX HX' HP.
  assert (PE : Permutation E E').
  { rewrite <- (combine_map_fst _ _ E X) by (symmetry; apply HX). rewrite <- (combine_map_fst _ _ E' X') by (symmetry; apply HX').
    apply Permutation_map; auto. }
  rewrite (consensus_gibbs a E d), (consensus_gibbs a E' d); auto.
  - do 2 f_equal. apply map_ext. intros i. unfold gibbs_mean. f_equal.
    + apply Rsum_perm, Permutation_map. symmetry; auto.
    + apply Rsum_perm, Permutation_map. symmetry; auto.
  - destruct HA as [H (x & Hx)]. split.
    + intros e He. apply H. apply Permutation_in with (2 := He). symmetry; auto.
    + exists x. apply Permutation_in with (2 := Hx). auto.
Qed.

(** affine maps [p -> A p + t], [A] given by its rows *)
Definition affine (A : list (list R)) (t : list R) (p : list R) : list R := vadd (map (fun r => dot r p) A) t.

Lemma affine_equivariant : forall a E d X A t, admissible a E -> ensemble (length E) d X ->
  (forall r, In r A -> length r = d) -> length t = length A ->
  cc_default E (map floats (map (affine A t) X)) (Fin a) = [floats (affine A t (gibbs_point a E d X))].
Proof.
  intros a E d X A t HA HX Hr Ht. assert (HS := gsum_pos _ _ HA).
  assert (HX' : ensemble (length E) (length A) (map (affine A t) X)).
  { destruct HX as [HN Hd]. split; [rewrite map_length; auto|]. intros p Hp. apply in_map_iff in Hp. destruct Hp as (q & <- & _).
    unfold affine, vadd. rewrite map2_length, map_length. lia. }
  rewrite (consensus_gibbs a E (length A)) by auto. do 2 f_equal.
  apply list_nth_ext with (d := 0) (n := length A).
  - apply gibbs_point_length.
  - unfold affine, vadd. rewrite map2_length, map_length. lia.
  - intros i Hi. unfold gibbs_point at 1. rewrite nth_map_seq by auto. unfold gibbs_mean.
    assert (HI : length (nth i A []) = d) by (apply Hr, nth_In; auto).
    assert (HC : forall p, coord i (affine A t p) = dot (nth i A []) p + nth i t 0).
    { intros p. unfold coord, affine, vadd. rewrite nth_map2 with (da := 0) (db := 0) by (rewrite ?map_length; lia).
      f_equal. rewrite nth_map with (da := []) by auto. auto. }
    change (nth i (affine A t (gibbs_point a E d X)) 0) with (coord i (affine A t (gibbs_point a E d X))). rewrite HC.
    rewrite combine_map_r, map_map. cbn [fst snd].
    rewrite (Rsum_map_ext _ _ (fun q => gibbs a (fst q) * dot (nth i A []) (snd q) + nth i t 0 * gibbs a (fst q))) by (intros; rewrite HC; ring).
    rewrite Rsum_map_plus, Rsum_map_scal, <- (dot_gibbs_point a E d) by auto.
    rewrite <- (map_map fst (gibbs a)), combine_map_fst by (symmetry; apply HX). field. lra.
Qed.

Lemma alpha_zero : forall E d X, admissible 0 E -> ensemble (length E) d X ->
  gibbs_point 0 E d X = map (fun i => Rsum (map (coord i) X) / INR (length X)) (seq 0 d).
Proof.
  intros E d X HA HX. assert (HF : forall e, In e E -> gibbs 0 e = 1).
  { intros e He. destruct HA as [H _]. destruct (H e He) as [(x & ->)|(_ & H0)]; [|lra]. cbn. rewrite <- exp_0. f_equal. ring. }
  apply map_ext_in. intros i _. unfold gibbs_mean. f_equal.
  - rewrite <- (combine_map_snd _ _ E X) at 2 by (symmetry; apply HX). rewrite map_map. apply Rsum_map_ext.
    intros [e p] Hq. apply in_combine_l in Hq. cbn. rewrite HF by auto. ring.
  - rewrite (Rsum_map_ext _ _ (fun _ => 1)) by auto. rewrite Rsum_map_const. destruct HX as [-> _]. ring.
Qed.

(** ** The rescaled variant *)
Lemma fminimum_fin : forall a E, admissible a E -> exists m, fminimum E = Fin m.
Proof.
  intros a E [H (x & Hx)].
  assert (G : forall l, (forall e, In e l -> (exists x, e = Fin x) \/ e = PInf) ->
            (fminimum l = PInf /\ ~ In (Fin x) l) \/ exists m, fminimum l = Fin m).
  { induction l; intros Hl; [left; cbn; auto|]. unfold fminimum in *. cbn [fold_right].
    assert (Ha : (exists x, a0 = Fin x) \/ a0 = PInf) by (apply Hl; left; auto).
    assert (IH := IHl (fun e He => Hl e (or_intror He))). clear IHl.
    destruct IH as [(-> & Hn)|(m & ->)]; destruct Ha as [(y & ->)| ->]; unfold fmin; cbn.
    - right. eauto.
    - left. split; auto. intros [|]; [discriminate|auto].
    - right. destruct (Rltb m y); eauto.
    - right. eauto. }
  destruct (G E) as [(_ & Hn)|?]; auto; [|contradiction]. intros e He. destruct (H e He) as [?|(? & _)]; auto.
Qed.

Lemma rescale_same : forall a E d X, admissible a E -> ensemble (length E) d X ->
  cc_rescale E (map floats X) (Fin a) = cc_default E (map floats X) (Fin a).
Proof.
  intros a E d X HA HX. destruct (fminimum_fin a E HA) as (m & Hm).
  rewrite <- (shift_invariant a E (- m) d X) by auto.
  unfold cc_rescale, cc_default, coeffs. rewrite Hm, map_map. do 3 f_equal.
Qed.

(** ** Laplace principle *)
Definition is_best (a : R) (E : list (fl R)) (k : nat) (es : R) : Prop := nth_error E k = Some (Fin es).

Lemma gibbs_rel : forall a e es g, 0 <= a -> (match e with Fin x => es + g <= x | PInf => True | _ => False end) ->
  gibbs a e <= exp (- a * g) * gibbs a (Fin es).
Proof.
  intros a e es g Ha H. destruct e; cbn; try tauto.
  - rewrite <- exp_plus. destruct (Rle_lt_or_eq_dec (- a * k) (- a * g + - a * es)) as [L|L]; [nra| |].
    + left. apply exp_increasing. auto.
    + rewrite L. lra.
  - left. apply Rmult_lt_0_compat; apply exp_pos.
Qed.

Lemma weight_bound : forall a E n e es w, 0 <= a -> admissible a E ->
  In (Fin es) E -> nth_error E n = Some (Fin e) ->
  nth_error (coeffs E (Fin a)) n = Some (Fin w) -> w <= exp (- a * (e - es)).
Proof.
  intros a E n e es w Ha HA Hes Hn Hw. assert (HS := gsum_pos _ _ HA).
  rewrite coeffs_char, map_map, nth_error_map, Hn in Hw by auto. cbn in Hw. injection Hw as <-.
  apply Rmult_le_reg_r with (1 := HS). unfold Rdiv. rewrite Rmult_assoc, Rinv_l, Rmult_1_r by lra.
  apply Rle_trans with (exp (- a * (e - es)) * exp (- a * es)).
  - rewrite <- exp_plus. right. f_equal. ring.
  - apply Rmult_le_compat_l; [left; apply exp_pos|].
    apply in_split in Hes. destruct Hes as (E1 & E2 & ->). rewrite map_app, Rsum_app. cbn [map]. rewrite Rsum_cons.
    assert (0 <= Rsum (map (gibbs a) E1)) by (apply Rsum_map_nonneg; intros; apply gibbs_nonneg).
    assert (0 <= Rsum (map (gibbs a) E2)) by (apply Rsum_map_nonneg; intros; apply gibbs_nonneg).
    cbn. lra.
Qed.

Lemma gibbs_mean_diff : forall a E X i b, admissible a E -> length X = length E ->
  (gibbs_mean a E X i - b) * Rsum (map (gibbs a) E) =
  Rsum (map (fun q => gibbs a (fst q) * (coord i (snd q) - b)) (combine E X)).
Proof.
  intros a E X i b HA HL. assert (HS := gsum_pos _ _ HA).
  rewrite (Rsum_map_ext _ _ (fun q => gibbs a (fst q) * coord i (snd q) - b * gibbs a (fst q))) by (intros; ring).
  rewrite Rsum_map_minus, Rsum_map_scal, <- (map_map fst (gibbs a)), combine_map_fst by auto.
  unfold gibbs_mean. field. lra.
Qed.

Lemma combine_app2 : forall A B (l1 l2 : list A) (k1 k2 : list B), length l1 = length k1 ->
  combine (l1 ++ l2) (k1 ++ k2) = combine l1 k1 ++ combine l2 k2.
Proof. induction l1; destruct k1; cbn; intros; try lia; auto. rewrite IHl1 by lia. auto. Qed.

Lemma laplace_bound : forall a E d X k es ps i g D, 0 <= a -> admissible a E -> ensemble (length E) d X -> (i < d)%nat ->
  nth_error E k = Some (Fin es) -> nth_error X k = Some ps -> 0 <= D ->
  (forall n e, n <> k -> nth_error E n = Some (Fin e) -> es + g <= e) ->
  (forall p, In p X -> Rabs (coord i p - coord i ps) <= D) ->
  Rabs (coord i (gibbs_point a E d X) - coord i ps) <= D * (INR (length E) - 1) * exp (- a * g).
Proof.
  intros a E d X k es ps i g D Ha HA HX Hi HE HP HD0 Hg HD. assert (HS := gsum_pos _ _ HA).
  unfold coord at 1. unfold gibbs_point. rewrite nth_map_seq by auto.
  set (S := Rsum (map (gibbs a) E)) in *. set (b := coord i ps) in *.
  assert (HL : length X = length E) by apply HX.
  apply Rmult_le_reg_r with (1 := HS). rewrite <- (Rabs_pos_eq S) at 1 by lra. rewrite <- Rabs_mult.
  unfold S at 1. rewrite gibbs_mean_diff by auto. fold S.
  apply nth_error_split in HE. destruct HE as (E1 & E2 & -> & Hk). apply nth_error_split in HP. destruct HP as (X1 & X2 & -> & Hk').
  rewrite combine_app2 by lia. cbn [combine]. rewrite map_app. cbn [map fst snd]. fold b.
  rewrite Rsum_app, Rsum_cons. replace (gibbs a (Fin es) * (b - b)) with 0 by ring. rewrite Rplus_0_l, <- Rsum_app, <- map_app.
  eapply Rle_trans; [apply Rsum_abs|].
  apply Rle_trans with (Rsum (map (fun _ : fl R * list R => exp (- a * g) * gibbs a (Fin es) * D) (combine E1 X1 ++ combine E2 X2))).
  - apply Rsum_map_le. intros q Hq. rewrite Rabs_mult, (Rabs_pos_eq (gibbs a _)) by apply gibbs_nonneg.
    apply Rmult_le_compat; try apply Rabs_pos; try apply gibbs_nonneg.
    + apply gibbs_rel; auto.
      assert (HH : exists n, n <> k /\ nth_error (E1 ++ Fin es :: E2) n = Some (fst q)).
      { apply in_app_iff in Hq. destruct Hq as [Hq|Hq]; destruct (combine_nth_error _ _ _ _ _ Hq) as (n & H1 & _).
        - assert (n < length E1)%nat by (apply nth_error_Some; congruence). exists n. split; [lia|]. rewrite nth_error_app1 by auto. auto.
        - exists (n + 1 + length E1)%nat. split; [lia|]. rewrite nth_error_app2 by lia. replace (n + 1 + length E1 - length E1)%nat with (Datatypes.S n) by lia. auto. }
      destruct HH as (n & Hn & HE'). destruct HA as [HA _]. destruct (HA _ (nth_error_In _ _ HE')) as [(x & Ex)|(Ex & _)]; rewrite Ex in *; auto.
      apply (Hg n); auto.
    + apply HD. apply in_app_iff in Hq. apply in_app_iff. destruct q as [e p]. destruct Hq as [Hq|Hq]; apply in_combine_r in Hq; [left|right; right]; auto.
  - rewrite Rsum_map_const, app_length, !combine_length.
    assert (Hlen : length (E1 ++ Fin es :: E2) = (length E1 + 1 + length E2)%nat) by (rewrite app_length; cbn; lia).
    rewrite app_length in HL. cbn in HL. rewrite Hlen in *.
    replace (Nat.min (length E1) (length X1) + Nat.min (length E2) (length X2))%nat with (length E1 + length E2)%nat by lia.
    replace (INR (length E1 + 1 + length E2) - 1) with (INR (length E1 + length E2)) by (rewrite !plus_INR; cbn; lra).
    assert (gibbs a (Fin es) <= S).
    { unfold S. rewrite map_app, Rsum_app. cbn [map]. rewrite Rsum_cons.
      assert (0 <= Rsum (map (gibbs a) E1)) by (apply Rsum_map_nonneg; intros; apply gibbs_nonneg).
      assert (0 <= Rsum (map (gibbs a) E2)) by (apply Rsum_map_nonneg; intros; apply gibbs_nonneg). lra. }
    assert (0 <= INR (length E1 + length E2)) by apply pos_INR.
    assert (0 < exp (- a * g)) by apply exp_pos.
    set (Q := INR (length E1 + length E2)) in *.
    replace (Q * (exp (- a * g) * gibbs a (Fin es) * D)) with ((D * Q * exp (- a * g)) * gibbs a (Fin es)) by ring.
    apply Rmult_le_compat_l; auto. apply Rmult_le_pos; [apply Rmult_le_pos; auto|lra].
Qed.

Lemma laplace_limit : forall E d X k es ps i, (forall e, In e E -> (exists x, e = Fin x) \/ e = PInf) ->
  ensemble (length E) d X -> (i < d)%nat ->
  nth_error E k = Some (Fin es) -> nth_error X k = Some ps ->
  (forall n e, n <> k -> nth_error E n = Some (Fin e) -> es < e) ->
  forall eps, 0 < eps -> exists A, forall a, A <= a -> 
    Rabs (coord i (gibbs_point a E d X) - coord i ps) < eps.
Proof.
  intros E d X k es ps i HE HX Hi HEk HXk Hu eps Heps.
  (* a positive gap *)
  assert (G : exists g, 0 < g /\ forall n e, n <> k -> nth_error E n = Some (Fin e) -> es + g <= e).
  { clear - Hu. revert k Hu. induction E as [|e0 E IH]; intros k Hu.
    - exists 1. split; [lra|]. intros n e _ H. destruct n; discriminate.
    - destruct k.
      + destruct (IH (length E)) as (g & Hg & H).
        { intros n e Hn H. apply (Hu (S n)); auto. }
        exists g. split; auto. intros n e Hn HH. destruct n; [congruence|]. apply (H n); auto.
        intros ->. cbn in HH. assert (length E < length E)%nat by (apply nth_error_Some; congruence). lia.
      + destruct (IH k) as (g & Hg & H).
        { intros n e Hn H. apply (Hu (S n)); auto. }
        destruct e0 as [x| | |].
        * assert (es < x) by (apply (Hu 0%nat); auto). exists (Rmin g (x - es)). split.
          { apply Rmin_pos; lra. }
          intros n e Hn HH. destruct n.
          { cbn in HH. injection HH as <-. assert (Q := Rmin_r g (x - es)). lra. }
          assert (Q := Rmin_l g (x - es)). assert (es + g <= e) by (apply (H n); auto). lra.
        * exists g. split; auto. intros n e Hn HH. destruct n; [discriminate|]. apply (H n); auto.
        * exists g. split; auto. intros n e Hn HH. destruct n; [discriminate|]. apply (H n); auto.
        * exists g. split; auto. intros n e Hn HH. destruct n; [discriminate|]. apply (H n); auto. }
  destruct G as (g & Hg & HG).
  assert (DD : exists D, 0 <= D /\ forall p, In p X -> Rabs (coord i p - coord i ps) <= D).
  { clear. induction X as [|p X IH]; [exists 0; split; [lra|intros p []]|]. destruct IH as (D & HD & H).
    exists (Rmax D (Rabs (coord i p - coord i ps))). split; [eapply Rle_trans; [exact HD|apply Rmax_l]|].
    intros q [<-|Hq]; [apply Rmax_r|]. eapply Rle_trans; [apply H; auto|apply Rmax_l]. }
  destruct DD as (D & HD0 & HD).
  assert (HN : 1 <= INR (length E)).
  { destruct E; [destruct k; discriminate|]. cbn [length]. rewrite S_INR. assert (0 <= INR (length E)) by apply pos_INR. lra. }
  set (C := D * (INR (length E) - 1)). assert (HC : 0 <= C) by (apply Rmult_le_pos; lra).
  exists (Rmax 1 (C / (eps * g))). intros a Ha.
  assert (1 <= a) by (eapply Rle_trans; [apply Rmax_l|exact Ha]).
  assert (C / (eps * g) <= a) by (eapply Rle_trans; [apply Rmax_r|exact Ha]).
  assert (HA : admissible a E).
  { split; [|exists es; apply nth_error_In with (1 := HEk)]. intros e He. destruct (HE e He); auto. right; split; auto; lra. }
  assert (Q := laplace_bound a E d X k es ps i g D ltac:(lra) HA HX Hi HEk HXk HD0 HG HD). fold C in Q.
  eapply Rle_lt_trans; [exact Q|].
  assert (HT : 1 + a * g <= exp (a * g)).
  { destruct (Req_dec (a * g) 0) as [Z|Z]; [rewrite Z, exp_0; lra|]. left. apply exp_ineq1. auto. }
  replace (- a * g) with (- (a * g)) by ring. rewrite exp_Ropp.
  assert (0 < exp (a * g)) by apply exp_pos.
  assert (HCa : C <= a * (eps * g)).
  { apply Rmult_le_reg_r with (/ (eps * g)); [apply Rinv_0_lt_compat, Rmult_lt_0_compat; auto|].
    rewrite Rmult_assoc, Rinv_r by nra. unfold Rdiv in H0. lra. }
  apply Rmult_lt_reg_r with (exp (a * g)); auto. rewrite Rmult_assoc, Rinv_l by lra. nra.
Qed.

Lemma laplace_limit_cc : forall E d X k es ps i, (forall e, In e E -> (exists x, e = Fin x) \/ e = PInf) ->
  ensemble (length E) d X -> (i < d)%nat ->
  nth_error E k = Some (Fin es) -> nth_error X k = Some ps ->
  (forall n e, n <> k -> nth_error E n = Some (Fin e) -> es < e) ->
  forall eps, 0 < eps -> exists A, forall a, A <= a -> exists c,
    cc_default E (map floats X) (Fin a) = [floats c] /\ Rabs (coord i c - coord i ps) < eps.
Proof.
  intros E d X k es ps i HE HX Hi HEk HXk Hu eps Heps.
  destruct (laplace_limit E d X k es ps i HE HX Hi HEk HXk Hu eps Heps) as (A & HA).
  exists (Rmax 1 A). intros a Ha. exists (gibbs_point a E d X).
  assert (1 <= a) by (eapply Rle_trans; [apply Rmax_l|exact Ha]).
  assert (A <= a) by (eapply Rle_trans; [apply Rmax_r|exact Ha]).
  split; [apply consensus_gibbs; auto|auto]. split; [|exists es; apply nth_error_In with (1 := HEk)].
  intros e He. destruct (HE e He); auto. right; split; auto; lra.
Qed.
