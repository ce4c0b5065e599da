(** * Facts about success evaluation *)
From Coq Require Import List Arith Bool Lia Reals Lra.
From Verif Require Import Scalar Np NpFacts Nd State Pdyn Resampling StagFacts ResampApply Success.
Import ListNotations.
Open Scope nat_scope.

Section SuccessFacts.
  Context {K V : Type} {O : KOps K}.
  Notation F := (fl K).
  Notation st := (st K V).
  Notation cfg := (cfg K V).

  Lemma filter_incr : forall p l, incr l -> incr (filter p l).
  Proof.
    induction 1 as [| a l Ha Hl IH]; cbn; [constructor |]. destruct (p a); auto. constructor; auto.
    intros b Hb. apply filter_In in Hb. apply Ha. tauto.
  Qed.

  Lemma intersect_spec : forall a b m, In m (intersect1d a b) <-> In m a /\ In m b.
  Proof. intros. unfold intersect1d. rewrite filter_In, unique_In, existsb_In. tauto. Qed.

  Lemma intersect_incr : forall a b, incr (intersect1d a b).
  Proof. intros. apply filter_incr. apply unique_incr. Qed.

  Lemma seq_incr : forall n i, incr (seq i n).
  Proof.
    induction n; intros; cbn; constructor; auto. intros b Hb. apply in_seq in Hb. lia.
  Qed.

  Lemma eval_loop_spec : forall (crits : list (st -> res (list nat))) (s : st) idx outs, incr idx ->
    mapM (fun c => c s) crits = Ok outs ->
    exists idx', eval_loop crits s idx = Ok idx' /\ incr idx' /\
      forall m, In m idx' <-> In m idx /\ forall l, In l outs -> In m l.
  Proof.
    induction crits as [|c crits IH]; intros s idx outs Hi H; cbn in H.
    - injection H as <-. exists idx. split; auto. split; auto. intros m. split; [intros; split; [auto | intros ? []] | tauto].
    - destruct (c s) as [r|] eqn:Er; [| discriminate]. cbn in H.
      destruct (mapM (fun c => c s) crits) as [rs|] eqn:Ers; [| discriminate]. cbn in H. injection H as <-.
      cbn [eval_loop]. rewrite Er. cbn [bind].
      destruct (IH s (intersect1d r idx) rs (intersect_incr _ _) Ers) as (idx' & E & I & Hm).
      exists idx'. split; auto. split; auto. intros m. rewrite Hm, intersect_spec. split.
      + intros [[A B] C]. split; auto. intros l [<- | Hl]; auto.
      + intros [A B]. split; [split; [apply B; left; auto | auto] |]. intros l Hl. apply B. right. auto.
  Qed.

  Lemma incr_length_le : forall l n, incr l -> (forall m, In m l -> m < n) -> length l <= n.
  Proof.
    intros l n Hi Hl. rewrite <- (seq_length n 0). apply NoDup_incl_length; [apply incr_NoDup; auto |].
    intros m Hm. apply in_seq. specialize (Hl m Hm). lia.
  Qed.

  Lemma evaluation_spec : forall (crits : list (st -> res (list nat))) (s : st) outs, 1 <= s_M s ->
    mapM (fun c => c s) crits = Ok outs ->
    exists r, evaluation (Some crits) s = Ok r /\
      (forall m, In m (sidx r) <-> m < s_M s /\ forall l, In l outs -> In m l) /\
      NoDup (sidx r) /\ num r = length (sidx r) /\ (rate r * INR (s_M s) = INR (num r))%R /\ (0 <= rate r <= 1)%R.
  Proof.
    intros crits s outs HM H. unfold evaluation.
    destruct (eval_loop_spec crits s (seq 0 (s_M s)) outs (seq_incr _ _) H) as (idx & E & I & Hm).
    rewrite E. cbn [bind]. unfold mk. destruct (Nat.eqb_spec (s_M s) 0); [lia |].
    eexists. split; [reflexivity |]. cbn [sidx num rate].
    assert (Hlt : forall m, In m idx -> m < s_M s) by (intros m Hin; apply Hm in Hin; rewrite in_seq in Hin; lia).
    split. { intros m. rewrite Hm, in_seq. split; intros [A B]; (split; [lia | auto]). }
    split; [apply incr_NoDup; auto |]. split; auto.
    assert (P : (0 < INR (s_M s))%R) by (apply lt_0_INR; lia).
    split; [field; lra |].
    assert (L : (INR (length idx) <= INR (s_M s))%R) by (apply le_INR; apply incr_length_le; auto).
    pose proof (pos_INR (length idx)). split.
    - apply Rmult_le_pos; auto. left. apply Rinv_0_lt_compat; auto.
    - apply Rmult_le_reg_r with (INR (s_M s)); auto. unfold Rdiv. rewrite Rmult_assoc, Rinv_l by lra. lra.
  Qed.

  Lemma value_spec : forall (c : cfg) thresh (s : st), 1 <= length (s_bp s) ->
    exists r s', value_success c thresh s = Ok (r, s') /\
      (forall m v, nth_error (s_bp s) m = Some v -> (In m (sidx r) <-> fltb (c_f c v) thresh = true)) /\
      (forall m, In m (sidx r) -> m < length (s_bp s)) /\ NoDup (sidx r) /\
      num r = length (sidx r) /\ (rate r * INR (length (s_bp s)) = INR (num r))%R.
  Proof.
    intros c thresh s HM. unfold value_success, mk. destruct (Nat.eqb_spec (length (s_bp s)) 0); [lia |].
    eexists. eexists. split; [reflexivity |]. cbn [sidx num rate].
    split; [| split; [| split; [| split; auto]]].
    - intros m v Ev. rewrite np_where_spec, !nth_error_map, Ev. cbn. rewrite orb_false_r.
      split; [intros E; injection E; auto | intros; f_equal; auto].
    - intros m Hm. apply np_where_spec, nth_error_lt in Hm. rewrite !map_length in Hm. auto.
    - apply incr_NoDup. apply where_from_incr.
    - field. apply not_0_INR. auto.
  Qed.

  (** ** distance to the minimiser *)

  Lemma size2 : forall a b, size [a; b] = a * b.
  Proof. intros. unfold size, fold_right. rewrite Nat.mul_1_r. reflexivity. Qed.
  Lemma size1 : forall a, size [a] = a.
  Proof. intros. unfold size, fold_right. apply Nat.mul_1_r. Qed.

  Lemma unravel2 : forall a b m j, j < b -> unravel [a; b] (m * b + j) = [m; j].
  Proof.
    intros a b m j L. cbn [unravel]. rewrite size1. unfold size, fold_right.
    rewrite Nat.div_1_r. f_equal.
    - rewrite Nat.div_add_l by lia. rewrite Nat.div_small by lia. lia.
    - f_equal. rewrite Nat.add_comm, Nat.mod_add by lia. apply Nat.mod_small. auto.
  Qed.

  Lemma bdim_refl : forall a, bdim a a = Some a.
  Proof. intros. unfold bdim. rewrite Nat.eqb_refl. auto. Qed.
  Lemma bdim_1_l : forall a, bdim 1 a = Some a.
  Proof. intros. unfold bdim. destruct (Nat.eqb_spec 1 a); subst; auto. Qed.

  (** the differences, laid out as M rows of d numbers *)
  Lemma diff_rows : forall (x_true x : nd F) M d, 1 <= M -> 1 <= d -> shape x = [M; d] -> shape x_true = [d] ->
    exists df, lift2 fsub (newaxis_first x_true) (squeeze x) = Ok df /\
      reshape_rows M df =
        Ok (map (fun m => map (fun j => fsub (get x_true [j]) (get x [m; j])) (seq 0 d)) (seq 0 M)).
  Proof.
    intros x_true x M d HM Hd Ex Et. unfold lift2, squeeze, newaxis_first. cbn [shape]. rewrite Ex, Et.
    cbn [filter].
    assert (Go : forall (df : nd F) q, size (shape df) = M * q -> q = d ->
       (forall m j, m < M -> j < d -> get df (unravel (shape df) (m * d + j)) = fsub (get x_true [j]) (get x [m; j])) ->
       reshape_rows M df = Ok (map (fun m => map (fun j => fsub (get x_true [j]) (get x [m; j])) (seq 0 d)) (seq 0 M))).
    { intros df q Es -> Hg. unfold reshape_rows. rewrite Es.
      destruct (Nat.eqb_spec M 0); [lia |]. rewrite (Nat.mul_comm M d), Nat.mod_mul, Nat.div_mul by lia. cbn [Nat.eqb orb negb].
      f_equal. apply map_ext_in. intros m Hm. apply in_seq in Hm. apply map_ext_in. intros j Hj. apply in_seq in Hj.
      apply Hg; lia. }
    destruct (Nat.eqb_spec M 1) as [-> | NM]; destruct (Nat.eqb_spec d 1) as [-> | Nd']; cbn [negb].
    - (* one run, one coordinate *)
      unfold bshape. cbn [rev app brev option_map]. eexists. split; [reflexivity |].
      apply (Go _ 1); auto. intros m j Lm Lj. assert (m = 0) by lia. assert (j = 0) by lia. subst.
      reflexivity.
    - (* one run *)
      unfold bshape. cbn [rev app brev]. rewrite bdim_refl. cbn [option_map rev app]. eexists. split; [reflexivity |].
      apply (Go _ d); auto. { cbn [shape]. rewrite size2. auto. }
      intros m j Lm Lj. assert (m = 0) by lia. subst. cbn [shape]. rewrite unravel2 by auto. cbn [get].
      unfold bget. cbn [shape get rev app proj_rev tl unsqueeze]. rewrite Nat.eqb_refl.
      destruct (Nat.eqb_spec d 1); [lia |]. cbn [rev app unsqueeze]. reflexivity.
    - (* one coordinate *)
      unfold bshape. cbn [rev app brev]. rewrite bdim_1_l. cbn [option_map rev app]. eexists. split; [reflexivity |].
      apply (Go _ 1); auto. { cbn [shape]. rewrite size2. lia. }
      intros m j Lm Lj. assert (j = 0) by lia. subst.
      cbn [shape]. replace (m * 1 + 0) with (0 * M + m) by lia. rewrite unravel2 by auto. cbn [get].
      unfold bget. cbn [shape get rev app proj_rev tl unsqueeze]. rewrite Nat.eqb_refl.
      destruct (Nat.eqb_spec M 1); [lia |]. cbn [rev app unsqueeze].  reflexivity.
    - unfold bshape. cbn [rev app brev]. rewrite bdim_refl, bdim_1_l. cbn [option_map rev app]. eexists. split; [reflexivity |].
      apply (Go _ d); auto. { cbn [shape]. rewrite size2. auto. }
      intros m j Lm Lj. cbn [shape]. rewrite unravel2 by auto. cbn [get].
      unfold bget. cbn [shape get rev app proj_rev tl unsqueeze]. idtac.
      destruct (Nat.eqb_spec d 1); [lia |]. destruct (Nat.eqb_spec M 1); [lia |]. cbn [rev app unsqueeze]. reflexivity.
  Qed.

  Lemma dist_spec : forall nrm (tol : F) (x_true x : nd F) M d, 1 <= M -> 1 <= d -> shape x = [M; d] -> shape x_true = [d] ->
    exists r, dist_to_min_success nrm tol x_true x = Ok r /\
      (forall m, m < M ->
         (In m (sidx r) <-> fltb (nrm (map (fun j => fsub (get x_true [j]) (get x [m; j])) (seq 0 d))) tol = true)) /\
      (forall m, In m (sidx r) -> m < M) /\ NoDup (sidx r) /\
      num r = length (sidx r) /\ (rate r * INR M = INR (num r))%R.
  Proof.
    intros nrm tol x_true x M d HM Hd Ex Et.
    destruct (diff_rows x_true x M d HM Hd Ex Et) as (df & E1 & E2).
    unfold dist_to_min_success. rewrite Ex, E1. cbn [bind]. rewrite E2. cbn [bind]. unfold mk.
    destruct (Nat.eqb_spec M 0); [lia |]. eexists. split; [reflexivity |]. cbn [sidx num rate].
    split; [| split; [| split; [| split; auto]]].
    - intros m Lm. rewrite np_where_spec, !nth_error_map, nth_error_seq.
      destruct (Nat.ltb_spec m M); [| lia]. cbn [option_map]. rewrite Nat.add_0_l.
      split; [intros E; injection E; auto | intros; f_equal; auto].
    - intros m Hm. apply np_where_spec, nth_error_lt in Hm. rewrite !map_length, seq_length in Hm. auto.
    - apply incr_NoDup. apply where_from_incr.
    - field. apply not_0_INR. auto.
  Qed.
End SuccessFacts.
