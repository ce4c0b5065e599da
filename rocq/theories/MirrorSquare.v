(** * Mirror maps: the square and the Stiefel manifold *)
From Coq Require Import List Arith Reals Lra Lia Psatz Permutation.
From Verif Require Import Scalar Np NpFacts PdynRun PdynOk PdynStep BestFacts Consensus PostProc RVec RVecFacts ConsSpec ConsFacts PolarFacts RegFacts Cbo CboSpec CboFacts
  MatSqrt MatSpec MatFacts MirrorMaps MirrorSpec MirrorFacts MirrorProj.
Import ListNotations.
Open Scope R_scope.

Definition clipr (r a : R) : R := Rmin (Rmax a (- r)) r.
Lemma np_clip_fin : forall r a, np_clip (Fin (- r)) (Fin r) (Fin a) = Fin (clipr r a).
Proof. intros. unfold np_clip. rewrite fmax_fin, fmin_fin. reflexivity. Qed.
Lemma clipr_in : forall r a, Rabs a <= r -> clipr r a = a.
Proof.
  intros r a H. unfold clipr. pose proof (Rle_abs a). pose proof (Rle_abs (- a)) as H1. rewrite Rabs_Ropp in H1.
  rewrite Rmax_left by lra. apply Rmin_left. lra.
Qed.
Lemma clipr_high : forall r a, 0 <= r -> r <= a -> clipr r a = r.
Proof. intros r a H H1. unfold clipr. rewrite Rmax_left by lra. apply Rmin_right. lra. Qed.
Lemma clipr_low : forall r a, 0 <= r -> a <= - r -> clipr r a = - r.
Proof. intros r a H H1. unfold clipr. rewrite Rmax_right by lra. apply Rmin_left. lra. Qed.
Lemma clipr_cases : forall r a, 0 <= r -> (Rabs a <= r /\ clipr r a = a) \/ (r < a /\ clipr r a = r) \/ (a < - r /\ clipr r a = - r).
Proof.
  intros r a H. destruct (Rle_dec (Rabs a) r) as [L|L]; [left; split; auto; apply clipr_in; auto|right].
  unfold Rabs in L. destruct (Rcase_abs a); [right|left]; (split; [lra|]); [apply clipr_low|apply clipr_high]; lra.
Qed.

Lemma argmax_spec : forall l : list R, l <> [] -> let i := argmax (map Fin l) in
  (i < length l)%nat /\ forall j, (j < length l)%nat -> coord j l <= coord i l.
Proof.
  intros l H. unfold argmax. destruct (argmin (map fopp (map Fin l))) as [[i v]|e] eqn:E.
  2:{ destruct l; [congruence|]. cbn in E. discriminate. }
  pose proof (argmin_nth _ _ _ E) as En. rewrite map_map, nth_error_map in En. destruct (nth_error l i) as [a|] eqn:Ea; [|discriminate].
  cbn [option_map] in En. injection En as <-. cbv zeta. split. apply nth_error_Some. congruence.
  intros j Hj. assert (HL : fleb (Fin (- a)) (Fin (- coord j l)) = true).
  { eapply argmin_le; [|exact E|].
    - intros e He. rewrite map_map in He. apply in_map_iff in He. destruct He as (b & <- & _). reflexivity.
    - rewrite map_map. apply in_map_iff. exists (coord j l). split; auto. apply nth_In. auto. }
  cbn in HL. destruct (Rltb (- coord j l) (- a)) eqn:EL; [discriminate|]. apply Rltb_false in EL.
  unfold coord at 2. rewrite (nth_error_nth _ _ _ Ea). lra.
Qed.

Definition put (i : nat) (v : R) (l : list R) : list R := mapi (fun j a => if Nat.eqb j i then v else a) l.
Lemma put_length : forall i v l, length (put i v l) = length l.
Proof. intros. unfold put. apply mapi_length. Qed.
Lemma coord_put : forall i v l j, (j < length l)%nat -> coord j (put i v l) = if Nat.eqb j i then v else coord j l.
Proof.
  intros i v l j H. unfold coord. destruct (nth_error l j) as [a|] eqn:E.
  2:{ apply nth_error_None in E. lia. }
  rewrite (nth_error_nth _ _ _ E). apply nth_error_nth. unfold put. rewrite mapi_nth, E. reflexivity.
Qed.

Section Square.
  Variables (r : R) (y : list R).
  Hypothesis (Hr : 0 <= r) (Hy : y <> []).
  Let z := map (clipr r) y.
  Let i := argmax (map Fin (map Rabs z)).
  Definition square_point : list R := put i (rsign (coord i z)) z.
  Lemma square_conj : mm_conj (ProjectionSquare r) (floats y) = floats square_point.
  Proof.
    cbn [mm_conj]. replace (map (np_clip (Fin (- r)) (Fin r)) (floats y)) with (floats z).
    2:{ unfold z, floats. rewrite !map_map. apply map_ext. intros. symmetry. apply np_clip_fin. }
    replace (map fabs (floats z)) with (map Fin (map Rabs z)) by (unfold floats; rewrite !map_map; reflexivity). fold i.
    destruct (argmax_spec (map Rabs z)) as [Hi _]. { unfold z. destruct y; [congruence|discriminate]. } fold i in Hi. rewrite map_length in Hi.
    replace (nth i (floats z) NaN) with (Fin (coord i z)).
    2:{ symmetry. apply nth_error_nth. unfold floats. rewrite nth_error_map, (nth_error_nth' z 0) by auto. reflexivity. }
    rewrite fsign_fin. unfold assign, square_point, put, floats. apply nth_error_ext. intros j. rewrite mapi_nth, !nth_error_map, mapi_nth.
    destruct (nth_error z j); cbn; auto. destruct (Nat.eqb j i); auto.
  Qed.
  Lemma z_len : length z = length y.
  Proof. apply map_length. Qed.
  Lemma square_len : length square_point = length y.
  Proof. unfold square_point. rewrite put_length. apply z_len. Qed.
  Lemma i_lt : (i < length y)%nat.
  Proof.
    destruct (argmax_spec (map Rabs z)) as [Hi _]. { unfold z. destruct y; [congruence|discriminate]. } fold i in Hi. rewrite map_length, z_len in Hi. auto.
  Qed.
  Lemma coord_z : forall j, (j < length y)%nat -> coord j z = clipr r (coord j y).
  Proof. intros j H. unfold coord, z. apply nth_map. auto. Qed.
  Lemma i_max : forall j, (j < length y)%nat -> Rabs (coord j z) <= Rabs (coord i z).
  Proof.
    intros j H. destruct (argmax_spec (map Rabs z)) as [Hi HM]. { unfold z. destruct y; [congruence|discriminate]. } fold i in Hi, HM. cbv zeta in HM.
    specialize (HM j). rewrite map_length, z_len in HM. specialize (HM H). unfold coord in *.
    rewrite !(nth_map _ _ _ _ _ 0 0) in HM by (rewrite z_len; auto using i_lt). auto.
  Qed.
  Lemma square_coord : forall j, (j < length y)%nat -> coord j square_point = if Nat.eqb j i then rsign (coord i z) else clipr r (coord j y).
  Proof. intros j H. unfold square_point. rewrite coord_put by (rewrite z_len; auto). destruct (Nat.eqb j i); auto. apply coord_z; auto. Qed.
  Lemma z_nonzero : 0 < r -> y <> repeat 0 (length y) -> coord i z <> 0.
  Proof.
    intros Hp Hn E. apply Hn. apply (coord_ext _ _ (length y)); auto. apply repeat_length. intros j Hj. unfold coord at 2. rewrite nth_repeat.
    pose proof (i_max j Hj) as M. rewrite E, Rabs_R0 in M. rewrite coord_z in M by auto.
    destruct (clipr_cases r (coord j y) Hr) as [[L E1]|[[L E1]|[L E1]]]; rewrite E1 in M.
    - unfold Rabs in M. destruct (Rcase_abs (coord j y)); lra.
    - rewrite Rabs_right in M by lra. lra.
    - rewrite Rabs_Ropp, Rabs_right in M by lra. lra.
  Qed.
End Square.

Lemma rsign_abs : forall x, x <> 0 -> Rabs (rsign x) = 1.
Proof.
  intros x H. destruct (Rtotal_order x 0) as [L|[L|L]]; [rewrite rsign_neg by auto|lra|rewrite rsign_pos by auto].
  rewrite Rabs_left; lra. rewrite Rabs_right; lra.
Qed.

Lemma sqdist_sum : forall p q n, length p = n -> length q = n ->
  sqnorm (vsub p q) = Rsum (map (fun j => (coord j p - coord j q) * (coord j p - coord j q)) (seq 0 n)).
Proof.
  intros p q n Hp Hq. unfold sqnorm. rewrite (dot_sum _ _ n); try (apply length_vsub; auto). apply Rsum_map_ext. intros j _.
  fold (coord j (vsub p q)). rewrite coord_vsub by congruence. auto.
Qed.

(** r = 1: nearest point on the boundary of the cube *)
Lemma square1_nearest : forall y, y <> repeat 0 (length y) -> nearest (square 1) y (square_point 1 y).
Proof.
  intros y Hy. assert (Hn : y <> []) by (intros ->; apply Hy; reflexivity). assert (H1 : 0 <= 1) by lra.
  pose proof (square_len 1 y) as HL. pose proof (i_lt 1 y Hn) as Hi. pose proof (z_nonzero 1 y H1 Hn Rlt_0_1 Hy) as Hz.
  pose proof (square_coord 1 y) as HC. pose proof (i_max 1 y Hn) as HM. pose proof (coord_z 1 y) as HZ. cbv zeta in *.
  set (i := argmax (map Fin (map Rabs (map (clipr 1) y)))) in *. set (z := map (clipr 1) y) in *. split; auto. split.
  { split.
    - intros a Ha. apply (In_nth _ _ 0) in Ha. destruct Ha as (j & Hj & <-). rewrite HL in Hj. fold (coord j (square_point 1 y)).
      rewrite HC by auto. destruct (Nat.eqb j i). rewrite rsign_abs; auto; lra.
      destruct (clipr_cases 1 (coord j y) H1) as [[L E]|[[L E]|[L E]]]; rewrite E; auto. rewrite Rabs_right; lra. rewrite Rabs_left; lra.
    - exists (coord i (square_point 1 y)). split. apply nth_In. rewrite HL; auto. rewrite HC, Nat.eqb_refl by auto. apply rsign_abs; auto. }
  intros q Hq [Bq (b & Hb & Eb)]. apply dist_le_sq. rewrite (sqdist_sum _ _ (length y)), (sqdist_sum _ _ (length y)) by auto.
  assert (Bc : forall j, (j < length y)%nat -> Rabs (coord j q) <= 1). { intros j Hj. apply Bq. apply nth_In. rewrite Hq; auto. }
  destruct (Rle_dec 1 (Rabs (coord i z))) as [L|L].
  - (* outside or on the square: clipping *)
    assert (Ez : coord i z = clipr 1 (coord i y)) by (apply HZ; auto).
    assert (Er : rsign (coord i z) = coord i z).
    { rewrite Ez in *. destruct (clipr_cases 1 (coord i y) H1) as [[L1 E]|[[L1 E]|[L1 E]]]; rewrite E in *.
      - unfold Rabs in L, L1. destruct (Rcase_abs (coord i y)). rewrite rsign_neg; lra. rewrite rsign_pos; lra.
      - rewrite rsign_pos; lra.
      - rewrite rsign_neg; lra. }
    apply Rsum_map_le. intros j Hj. apply in_seq in Hj. rewrite HC by lia. specialize (Bc j ltac:(lia)).
    replace (if Nat.eqb j i then rsign (coord i z) else clipr 1 (coord j y)) with (clipr 1 (coord j y)).
    2:{ destruct (Nat.eqb_spec j i) as [->|]; auto. rewrite Er, Ez. auto. }
    assert (-1 <= coord j q <= 1). { unfold Rabs in Bc. destruct (Rcase_abs (coord j q)); lra. }
    destruct (clipr_cases 1 (coord j y) H1) as [[L1 E]|[[L1 E]|[L1 E]]]; rewrite E.
    + replace ((coord j y - coord j y) * (coord j y - coord j y)) with 0 by ring. pose proof (Rle_0_sqr (coord j y - coord j q)) as S. unfold Rsqr in S. lra.
    + apply Rmult_le_compat; lra.
    + replace ((coord j y - - (1)) * (coord j y - - (1))) with ((-1 - coord j y) * (-1 - coord j y)) by ring.
      replace ((coord j y - coord j q) * (coord j y - coord j q)) with ((coord j q - coord j y) * (coord j q - coord j y)) by ring. apply Rmult_le_compat; lra.
  - (* inside: the largest coordinate moves to the boundary *)
    assert (In1 : forall j, (j < length y)%nat -> Rabs (coord j y) <= Rabs (coord i y) /\ Rabs (coord i y) < 1 /\ coord i z = coord i y /\ clipr 1 (coord j y) = coord j y).
    { assert (Ei : coord i z = coord i y /\ Rabs (coord i y) < 1).
      { assert (Ez : coord i z = clipr 1 (coord i y)) by (apply HZ; auto). rewrite Ez in *.
        destruct (clipr_cases 1 (coord i y) H1) as [[L1 E]|[[L1 E]|[L1 E]]]; rewrite E in *.
        - split; auto. lra.
        - exfalso. rewrite Rabs_right in L by lra. lra.
        - exfalso. rewrite Rabs_left in L by lra. lra. }
      destruct Ei as [Ei Ei']. intros j Hj. specialize (HM j Hj). rewrite HZ in HM by auto. rewrite Ei in HM.
      destruct (clipr_cases 1 (coord j y) H1) as [[L1 E]|[[L1 E]|[L1 E]]]; rewrite E in HM.
      - repeat split; auto.
      - exfalso. rewrite (Rabs_right 1) in HM by lra. lra.
      - exfalso. rewrite Rabs_Ropp, (Rabs_right 1) in HM by lra. lra. }
    assert (EL : Rsum (map (fun j => (coord j y - coord j (square_point 1 y)) * (coord j y - coord j (square_point 1 y))) (seq 0 (length y))) =
                 (1 - Rabs (coord i y)) * (1 - Rabs (coord i y))).
    { transitivity (msum (length y) (fun j => if Nat.eqb i j then (1 - Rabs (coord i y)) * (1 - Rabs (coord i y)) else 0)).
      2:{ apply (msum_delta (length y) i (fun _ => (1 - Rabs (coord i y)) * (1 - Rabs (coord i y)))); auto. }
      unfold msum. apply Rsum_map_ext. intros j Hj. apply in_seq in Hj. rewrite HC by lia. destruct (In1 j ltac:(lia)) as (A1 & A2 & A3 & A4).
      rewrite (Nat.eqb_sym i j). destruct (Nat.eqb_spec j i) as [->|].
      - rewrite A3. destruct (Rtotal_order (coord i y) 0) as [T|[T|T]].
        + rewrite rsign_neg by auto. rewrite Rabs_left by auto. ring.
        + exfalso. apply Hz. rewrite A3. auto.
        + rewrite rsign_pos by auto. rewrite Rabs_right by lra. ring.
      - rewrite A4. ring. }
    rewrite EL. apply (In_nth _ _ 0) in Hb. destruct Hb as (k & Hk & <-). fold (coord k q) in Eb. rewrite Hq in Hk.
    apply Rle_trans with ((coord k y - coord k q) * (coord k y - coord k q)).
    + destruct (In1 k Hk) as (A1 & A2 & _). assert (1 - Rabs (coord i y) <= Rabs (coord k y - coord k q)).
      { assert (Rabs (coord k q) <= Rabs (coord k y) + Rabs (coord k y - coord k q)).
        { replace (coord k q) with (coord k y + - (coord k y - coord k q)) at 1 by ring. rewrite <- (Rabs_Ropp (coord k y - coord k q)). apply Rabs_triang. }
        lra. }
      replace ((coord k y - coord k q) * (coord k y - coord k q)) with (Rabs (coord k y - coord k q) * Rabs (coord k y - coord k q)).
      2:{ rewrite <- Rabs_mult. apply Rabs_right, Rle_ge, Rle_0_sqr. }
      apply Rmult_le_compat; lra.
    + fold (msum (length y) (fun j => (coord j y - coord j q) * (coord j y - coord j q))).
      rewrite <- (msum_delta (length y) k (fun j => (coord j y - coord j q) * (coord j y - coord j q))) at 1 by auto. unfold msum. apply Rsum_map_le. intros j _.
      destruct (Nat.eqb k j). lra. apply Rle_0_sqr.
Qed.

Lemma square1_fixed : forall y, square 1 y -> square_point 1 y = y.
Proof.
  intros y [B (b & Hb & Eb)]. assert (Hn : y <> []) by (destruct y; [contradiction|congruence]). assert (H1 : 0 <= 1) by lra.
  pose proof (square_len 1 y) as HL. pose proof (i_lt 1 y Hn) as Hi.
  pose proof (square_coord 1 y) as HC. pose proof (i_max 1 y Hn) as HM. pose proof (coord_z 1 y) as HZ. cbv zeta in *.
  set (i := argmax (map Fin (map Rabs (map (clipr 1) y)))) in *. set (z := map (clipr 1) y) in *.
  assert (Bc : forall j, (j < length y)%nat -> Rabs (coord j y) <= 1). { intros j Hj. apply B. apply nth_In. auto. }
  apply (coord_ext _ _ (length y)); auto. intros j Hj. rewrite HC by auto. rewrite clipr_in by auto.
  destruct (Nat.eqb_spec j i) as [->|]; auto. apply (In_nth _ _ 0) in Hb. destruct Hb as (k & Hk & <-). fold (coord k y) in Eb.
  specialize (HM k Hk). rewrite !HZ, !clipr_in in * by auto. specialize (Bc i Hi).
  unfold Rabs in Bc, HM, Eb. destruct (Rcase_abs (coord i y)), (Rcase_abs (coord k y)); (first [rewrite rsign_neg by lra | rewrite rsign_pos by lra]); lra.
Qed.

(** r <> 1: the result is not on the square *)
Lemma square_small : forall r y, 0 < r < 1 -> y <> repeat 0 (length y) -> exists a, In a (square_point r y) /\ r < Rabs a.
Proof.
  intros r y Hr Hy. assert (Hn : y <> []) by (intros ->; apply Hy; reflexivity). assert (H1 : 0 <= r) by lra.
  pose proof (square_len r y) as HL. pose proof (i_lt r y Hn) as Hi. pose proof (z_nonzero r y H1 Hn (proj1 Hr) Hy) as Hz.
  pose proof (square_coord r y) as HC. cbv zeta in *. eexists. split. apply nth_In with (d := 0). rewrite HL. exact Hi.
  fold (coord (argmax (map Fin (map Rabs (map (clipr r) y)))) (square_point r y)). rewrite HC, Nat.eqb_refl by auto. rewrite rsign_abs by auto. lra.
Qed.
Lemma square_large : forall r y, 1 < r -> all_coord (fun a => Rabs a < r) y -> all_coord (fun a => Rabs a < r) (square_point r y).
Proof.
  intros r y Hr Hy a Ha. apply (In_nth _ _ 0) in Ha. destruct Ha as (j & Hj & <-). fold (coord j (square_point r y)). rewrite square_len in Hj.
  rewrite square_coord by auto. cbv zeta. destruct (Nat.eqb _ _).
  - match goal with |- Rabs (rsign ?t) < _ => destruct (Req_dec t 0) as [E|E]; [rewrite E, rsign_0, Rabs_R0; lra|rewrite rsign_abs by auto; lra] end.
  - assert (Rabs (coord j y) < r) by (apply Hy; apply nth_In; auto). rewrite clipr_in; auto; lra.
Qed.
