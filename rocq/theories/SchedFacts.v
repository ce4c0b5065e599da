(** * Proofs on schedulers and bisection *)
From Coq Require Import List Arith Bool Reals Lia Lra.
From Verif Require Import Scalar ScalarFacts Np NpFacts State Exec TermSpec MiscFacts RVec RVecFacts Consensus Sched.
Import ListNotations.

(** ** multiply *)
Section Mult.
  Context {K V : Type} {O : KOps K}.
  Notation st := (st K V).

  (** the values of a parameter, as a flat list *)
  Definition param (p : pname) (s : st) : list (fl K) :=
    match p with PAlpha => concat (s_alpha s) | PSigma => [s_sigma s] | PLamda => [s_lamda s] | PDt => [s_dt s] end.

  (** [u] executed [n] times *)
  Fixpoint times (n : nat) (u : st -> res st) (s : st) : res st :=
    match n with 0 => Ok s | S n' => s1 <- times n' u s ;; u s1 end.

  Lemma concat_map2 : forall A B (g : A -> B) l, concat (map (map g) l) = map g (concat l).
  Proof. induction l; cbn; auto. rewrite map_app, IHl. auto. Qed.

  Lemma param_on : forall p g (s : st), param p (on_param p g s) = map g (param p s).
  Proof. destruct p; cbn; intros; auto. apply concat_map2. Qed.
  Lemma param_on_other : forall p q g (s : st), p <> q -> param q (on_param p g s) = param q s.
  Proof. destruct p, q; cbn; intros; auto; congruence. Qed.
  Lemma on_param_changed : forall p g (s : st), params_changed s (on_param p g s).
  Proof.
    intros. exists (match p with PAlpha => map (map g) (s_alpha s) | _ => s_alpha s end),
      (match p with PSigma => g (s_sigma s) | _ => s_sigma s end), (match p with PLamda => g (s_lamda s) | _ => s_lamda s end),
      (match p with PDt => g (s_dt s) | _ => s_dt s end).
    split; [|destruct p, s; reflexivity].
    destruct p; auto. intros [H1 H2]. split; [rewrite map_length; auto|]. apply Forall_map.
    eapply Forall_impl; [|exact H2]. intros a Ha. cbn in *. rewrite map_length; auto.
  Qed.
  Lemma params_changed_trans : forall (s1 s2 s3 : st), params_changed s1 s2 -> params_changed s2 s3 -> params_changed s1 s3.
  Proof.
    intros s1 s2 s3 (a & b & c & d & H & ->) (a' & b' & c' & d' & H' & ->). exists a', b', c', d'. split.
    - cbn in H'. auto.
    - destruct s1; reflexivity.
  Qed.
  Lemma multiply_changed : forall p f m (s s' : st), multiply_update p f m s = Ok s' -> params_changed s s'.
  Proof. intros p f m s s' [= <-]. eapply params_changed_trans; apply on_param_changed. Qed.
  Lemma multiply_param : forall p f m (s s' : st), multiply_update p f m s = Ok s' ->
    param p s' = map (fun a => fmin m (fmul f a)) (param p s).
  Proof. intros p f m s s' [= <-]. unfold ensure_max. rewrite !param_on, map_map. auto. Qed.
  Lemma multiply_other : forall p q f m (s s' : st), multiply_update p f m s = Ok s' -> p <> q ->
    param q s' = param q s.
  Proof. intros p q f m s s' [= <-] H. unfold ensure_max. rewrite !param_on_other; auto. Qed.
  Lemma times_ok : forall n p f m (s : st), exists s', times n (multiply_update p f m) s = Ok s'.
  Proof. induction n; intros; cbn; eauto. destruct (IHn p f m s) as (s' & ->). cbn. unfold multiply_update. eauto. Qed.
  Lemma times_other : forall n p q f m (s s' : st), times n (multiply_update p f m) s = Ok s' -> p <> q ->
    param q s' = param q s.
  Proof.
    induction n; cbn; intros p q f m s s' H Hq; [injection H as ->; auto|].
    destruct (times n (multiply_update p f m) s) eqn:E; cbn in H; [|discriminate].
    rewrite <- (IHn _ q _ _ _ _ E Hq). eapply multiply_other; eauto.
  Qed.
  Lemma fmin_le : forall {Ord : KOrd K} (m a : fl K), fltb m (fmin m a) = false.
  Proof.
    intros Ord m a. unfold fmin. destruct (is_nan m || is_nan a) eqn:E; [destruct m; reflexivity|].
    destruct (fltb a m) eqn:L; [|destruct m; cbn; auto; apply kltb_irrefl].
    destruct m as [x| | |], a as [y| | |]; cbn in *; try discriminate; auto.
    destruct (kltb x y) eqn:E2; auto. rewrite <- (kltb_irrefl x). symmetry. eapply kltb_trans; eauto.
  Qed.
  Lemma multiply_capped : forall {Ord : KOrd K} p f m (s s' : st) a, multiply_update p f m s = Ok s' ->
    In a (param p s') -> fltb m a = false.
  Proof.
    intros Ord p f m s s' a H Ha. rewrite (multiply_param _ _ _ _ _ H) in Ha. apply in_map_iff in Ha.
    destruct Ha as (b & <- & _). apply fmin_le.
  Qed.

  (** ** scheduler lists *)
  (** the updates [us] executed one after the other lead from [s] to [s'] *)
  Inductive in_order : list (st -> res st) -> st -> st -> Prop :=
  | io_nil : forall s, in_order [] s s
  | io_cons : forall u us s s1 s', u s = Ok s1 -> in_order us s1 s' -> in_order (u :: us) s s'.
  (** ... or stop with an exception raised by one of them *)
  Inductive fails_in_order : list (st -> res st) -> st -> exn -> Prop :=
  | fo_here : forall u us s e, u s = Err e -> fails_in_order (u :: us) s e
  | fo_later : forall u us s s1 e, u s = Ok s1 -> fails_in_order us s1 e -> fails_in_order (u :: us) s e.

  Lemma scheduler_spec : forall us s, (forall s', scheduler_update us s = Ok s' <-> in_order us s s') /\
    (forall e, scheduler_update us s = Err e <-> fails_in_order us s e).
  Proof.
    induction us; intros s; cbn.
    - split; intros; split; intros H; try discriminate; inversion H; subst; auto; constructor.
    - destruct (a s) as [s1|e1] eqn:E; cbn.
      + destruct (IHus s1) as [H1 H2]. split; intros; split; intros H.
        * econstructor; eauto. apply H1; auto.
        * inversion H; subst. assert (s2 = s1) by congruence. subst. apply H1; auto.
        * eapply fo_later; eauto. apply H2; auto.
        * inversion H; subst; [congruence|]. assert (s2 = s1) by congruence. subst. apply H2; auto.
      + split; intros; split; intros H; try discriminate.
        * inversion H; subst. congruence.
        * injection H as <-. constructor; auto.
        * inversion H; subst; congruence.
  Qed.
  Lemma scheduler_app : forall us vs (s : st), scheduler_update (us ++ vs) s = (s1 <- scheduler_update us s ;; scheduler_update vs s1).
  Proof. induction us; intros; cbn; auto. destruct (a s); cbn; auto. Qed.
  Lemma scheduler_nested : forall us vs ws (s : st),
    scheduler_update (us ++ scheduler_update vs :: ws) s = scheduler_update (us ++ vs ++ ws) s.
  Proof.
    intros. rewrite !scheduler_app. destruct (scheduler_update us s); cbn; auto. rewrite scheduler_app. auto.
  Qed.
  Lemma scheduler_param : forall us, Forall param_sched us -> param_sched (@scheduler_update K V us).
  Proof.
    induction 1; intros s s' HS; cbn in HS.
    - injection HS as <-. exists (s_alpha s), (s_sigma s), (s_lamda s), (s_dt s). split; auto. destruct s; auto.
    - destruct (x s) as [s1|] eqn:E; cbn in HS; [|discriminate]. eapply params_changed_trans; [apply H; eauto|apply IHForall; auto].
  Qed.
  Lemma scheduler_total : forall us, Forall total_sched us -> total_sched (@scheduler_update K V us).
  Proof. induction 1; intros s; cbn; eauto. destruct (H s) as (s1 & ->). cbn. apply IHForall. Qed.
  Lemma multiply_param_sched : forall p f m, param_sched (@multiply_update K V O p f m).
  Proof. intros p f m s s'. apply multiply_changed. Qed.
  Lemma multiply_total_sched : forall p f m, total_sched (@multiply_update K V O p f m).
  Proof. intros p f m s. unfold multiply_update. eauto. Qed.
End Mult.

Open Scope R_scope.

Lemma fmin_fin : forall a b : R, fmin (Fin a) (Fin b) = Fin (Rmin a b).
Proof.
  intros. unfold fmin. cbn. unfold Rltb, Rmin. destruct (Rlt_dec b a), (Rle_dec a b); auto; try lra.
Qed.

Lemma multiply_closed : forall V n p f m (s s' : st R V) vs,
  1 <= f -> 0 <= m -> param p s = map Fin vs -> times (S n) (multiply_update p (Fin f) (Fin m)) s = Ok s' ->
  param p s' = map (fun v => Fin (Rmin m (f ^ S n * v))) vs.
Proof.
  induction n; intros p f m s s' vs Hf Hm HP H.
  - cbn [times bind] in H. rewrite (multiply_param _ _ _ _ _ H), HP, map_map. apply map_ext. intros v.
    cbn [fmul]. rewrite fmin_fin. cbn. do 2 f_equal. ring.
  - remember (S n) as k. cbn [times] in H. destruct (times k _ s) as [s1|] eqn:E; [|discriminate]. cbn [bind] in H. subst k.
    rewrite (multiply_param _ _ _ _ _ H), (IHn _ _ _ _ _ _ Hf Hm HP E), map_map. apply map_ext. intros v.
    cbn [fmul]. rewrite fmin_fin. f_equal. change (f ^ S (S n)) with (f * f ^ S n). rewrite Rmult_assoc.
    set (y := f ^ S n * v). change (kmul f (Rmin m y)) with (f * Rmin m y).
    assert (m <= f * m) by nra.
    unfold Rmin at 2. destruct (Rle_dec m y).
    + assert (f * m <= f * y) by (apply Rmult_le_compat_l; lra). rewrite !Rmin_left by lra. auto.
    + auto.
Qed.

Lemma multiply_shrink : forall V n p f m (s s' : st R V) vs,
  0 <= f <= 1 -> 0 <= m -> (forall v, In v vs -> v <= m) -> param p s = map Fin vs -> times n (multiply_update p (Fin f) (Fin m)) s = Ok s' ->
  param p s' = map (fun v => Fin (f ^ n * v)) vs.
Proof.
  induction n; intros p f m s s' vs Hf Hm Hv HP H.
  - injection H as <-. rewrite HP. apply map_ext. intros. f_equal. cbn. ring.
  - cbn [times] in H. destruct (times n _ s) as [s1|] eqn:E; [|discriminate]. cbn [bind] in H.
    rewrite (multiply_param _ _ _ _ _ H), (IHn _ _ _ _ _ _ Hf Hm Hv HP E), map_map. apply map_ext_in. intros v Hi.
    cbn [fmul]. rewrite fmin_fin. f_equal. change (kmul f (f ^ n * v)) with (f * (f ^ n * v)). cbn [pow]. rewrite <- Rmult_assoc.
    apply Rmin_right. change (f * f ^ n) with (f ^ S n).
    assert (0 <= f ^ S n <= 1).
    { clear - Hf. generalize (S n) as k. induction k; cbn; [lra|]. nra. }
    specialize (Hv v Hi). nra.
Qed.

Lemma pow_half_small : forall e, 0 < e -> exists n, (1 / 2) ^ n < e.
Proof.
  intros e He. destruct (pow_lt_1_zero (1 / 2)) with (y := e) as (N & HN); auto.
  - rewrite Rabs_pos_eq; lra.
  - exists N. specialize (HN N (le_n N)). rewrite Rabs_pos_eq in HN; auto. apply pow_le. lra.
Qed.

(** the declared minimum is not enforced: halving goes below any positive bound *)
Lemma multiply_no_minimum : forall V (s : st R V) v m minimum, 0 < v <= m -> 0 < minimum -> s_sigma s = Fin v ->
  exists n s' w, times n (multiply_update PSigma (Fin (1 / 2)) (Fin m)) s = Ok s' /\ s_sigma s' = Fin w /\ w < minimum.
Proof.
  intros V s v m minimum Hv Hmin HS.
  destruct (pow_half_small (minimum / v)) as (n & Hn); [apply Rdiv_lt_0_compat; lra|].
  destruct (times_ok n PSigma (Fin (1 / 2)) (Fin m) s) as (s' & Hs'). exists n, s', ((1 / 2) ^ n * v).
  split; auto. split.
  - assert (E : param PSigma s' = map (fun v => Fin ((1 / 2) ^ n * v)) [v]).
    { apply (multiply_shrink V n PSigma (1 / 2) m s s' [v]); auto; try lra.
      - intros w [<-|[]]; lra.
      - cbn. rewrite HS. auto. }
    cbn in E. congruence.
  - apply Rmult_lt_reg_r with (/ v); [apply Rinv_0_lt_compat; lra|]. rewrite Rmult_assoc, Rinv_r by lra. unfold Rdiv in Hn. lra.
Qed.

(** ** bisection *)
Definition same_length (M : nat) (f : list R -> list (fl R)) : Prop := forall x, length x = M -> length (f x) = M.

Lemma midpoints_length : forall l h, length (midpoints l h) = Nat.min (length l) (length h).
Proof. intros; apply map2_length. Qed.
Lemma midpoints_nth : forall l h i, (i < length l)%nat -> (i < length h)%nat -> nth i (midpoints l h) 0 = (nth i l 0 + nth i h 0) / 2.
Proof. intros. unfold midpoints. rewrite nth_map2 with (da := 0) (db := 0); auto. Qed.
Lemma new_low_length : forall M idx fx x l, length idx = M -> length fx = M -> length x = M -> length l = M ->
  length (new_low idx fx x l) = M.
Proof. intros. unfold new_low. rewrite !map2_length, combine_length. lia. Qed.
Lemma new_high_length : forall M idx fx x l, length idx = M -> length fx = M -> length x = M -> length l = M ->
  length (new_high idx fx x l) = M.
Proof. intros. unfold new_high. rewrite !map2_length, combine_length. lia. Qed.
Lemma new_low_nth : forall M idx fx x l i, length idx = M -> length fx = M -> length x = M -> length l = M -> (i < M)%nat ->
  nth i (new_low idx fx x l) 0 = if nth i idx false && fltb (Fin 0) (nth i fx NaN) then nth i x 0 else nth i l 0.
Proof.
  intros. unfold new_low. rewrite nth_map2 with (da := false) (db := (0, 0)); rewrite ?map2_length, ?combine_length; try lia.
  rewrite nth_map2 with (da := false) (db := NaN); try lia. rewrite combine_nth by lia. reflexivity.
Qed.
Lemma new_high_nth : forall M idx fx x l i, length idx = M -> length fx = M -> length x = M -> length l = M -> (i < M)%nat ->
  nth i (new_high idx fx x l) 0 = if nth i idx false && fltb (nth i fx NaN) (Fin 0) then nth i x 0 else nth i l 0.
Proof.
  intros. unfold new_high. rewrite nth_map2 with (da := false) (db := (0, 0)); rewrite ?map2_length, ?combine_length; try lia.
  rewrite nth_map2 with (da := false) (db := NaN); try lia. rewrite combine_nth by lia. reflexivity.
Qed.

(** One run of the loop, seen from run [i]: any predicate on its bracket kept by one iteration
    holds at the end. *)
Lemma bisect_run : forall f M i thresh (Q : R -> R -> nat -> Prop), same_length M f -> (i < M)%nat ->
  (forall xs l h j (b : bool), length xs = M -> Q l h j -> nth i xs 0 = (l + h) / 2 ->
     Q (if b && fltb (Fin 0) (nth i (f xs) NaN) then (l + h) / 2 else l)
       (if b && fltb (nth i (f xs) NaN) (Fin 0) then (l + h) / 2 else h) (S j)) ->
  forall left idx low high ev, length idx = M -> length low = M -> length high = M ->
  Q (nth i low 0) (nth i high 0) ev ->
  let r := bisect f thresh left idx low high ev in
  exists l h j, Q l h j /\ nth i (b_x r) 0 = (l + h) / 2 /\ b_evals r = S j /\ (j <= ev + left)%nat /\
    Q (nth i (b_low r) 0) (nth i (b_high r) 0) (S j).
Proof.
  intros f M i thresh Q Hf Hi HQ. induction left; intros idx low high ev H1 H2 H3 H4.
  - cbn. exists (nth i low 0), (nth i high 0), ev.
    assert (L : length (midpoints low high) = M) by (rewrite midpoints_length; lia).
    assert (F := Hf _ L). assert (MN : nth i (midpoints low high) 0 = (nth i low 0 + nth i high 0) / 2) by (apply midpoints_nth; lia).
    split; auto. split; auto. split; auto. split; [lia|].
    rewrite (new_low_nth M), (new_high_nth M) by auto. rewrite MN. apply HQ; auto.
  - cbn. assert (L : length (midpoints low high) = M) by (rewrite midpoints_length; lia).
    assert (F := Hf _ L). assert (MN : nth i (midpoints low high) 0 = (nth i low 0 + nth i high 0) / 2) by (apply midpoints_nth; lia).
    assert (QN : Q (nth i (new_low idx (f (midpoints low high)) (midpoints low high) low) 0)
                   (nth i (new_high idx (f (midpoints low high)) (midpoints low high) high) 0) (S ev)).
    { rewrite (new_low_nth M), (new_high_nth M) by auto. rewrite MN. apply HQ; auto. }
    destruct (existsb (fun b => b) (open_runs thresh (f (midpoints low high)))) eqn:E.
    + destruct (IHleft (open_runs thresh (f (midpoints low high)))
        (new_low idx (f (midpoints low high)) (midpoints low high) low)
        (new_high idx (f (midpoints low high)) (midpoints low high) high) (S ev)) as (l & h & j & G1 & G2 & G3 & G4 & G5); auto.
      * unfold open_runs. rewrite map_length; auto.
      * apply new_low_length; auto.
      * apply new_high_length; auto.
      * exists l, h, j. split; auto. split; auto. split; auto. split; auto; lia.
    + exists (nth i low 0), (nth i high 0), ev. split; auto. split; auto. split; auto. split; auto. lia.
Qed.

(** lengths, the returned function values, and why the loop stopped *)
Lemma bisect_stop : forall f M thresh, same_length M f ->
  forall left idx low high ev, length idx = M -> length low = M -> length high = M ->
  let r := bisect f thresh left idx low high ev in
  length (b_x r) = M /\ length (b_low r) = M /\ length (b_high r) = M /\ b_fx r = f (b_x r) /\
  (ev < b_evals r <= ev + left + 1)%nat /\
  ((b_evals r < ev + left + 1)%nat -> existsb (fun b => b) (open_runs thresh (f (b_x r))) = false).
Proof.
  intros f M thresh Hf. induction left; intros idx low high ev H1 H2 H3.
  - cbn. assert (L : length (midpoints low high) = M) by (rewrite midpoints_length; lia). assert (F := Hf _ L).
    rewrite (new_low_length M), (new_high_length M) by auto. repeat split; auto; lia.
  - cbn. assert (L : length (midpoints low high) = M) by (rewrite midpoints_length; lia). assert (F := Hf _ L).
    destruct (existsb (fun b => b) (open_runs thresh (f (midpoints low high)))) eqn:E.
    + destruct (IHleft (open_runs thresh (f (midpoints low high)))
        (new_low idx (f (midpoints low high)) (midpoints low high) low)
        (new_high idx (f (midpoints low high)) (midpoints low high) high) (S ev)) as (G1 & G2 & G3 & G4 & G5 & G6).
      * unfold open_runs. rewrite map_length; auto.
      * apply new_low_length; auto.
      * apply new_high_length; auto.
      * split; auto. split; auto. split; auto. split; auto. split; [lia|]. intros. apply G6. lia.
    + cbn. rewrite (new_low_length M), (new_high_length M) by auto. repeat split; auto; lia.
Qed.

Lemma bisection_stop : forall f M low high max_it thresh, same_length M f -> length low = M -> length high = M ->
  let r := bisection_solve f low high max_it thresh in
  length (b_x r) = M /\ length (b_low r) = M /\ length (b_high r) = M /\ b_fx r = f (b_x r) /\
  (1 <= b_evals r <= max_it + 1)%nat /\
  ((b_evals r <= max_it)%nat -> forall i v, nth_error (f (b_x r)) i = Some (Fin v) -> Rabs v <= thresh).
Proof.
  intros f M low high max_it thresh Hf H1 H2 r.
  destruct (bisect_stop f M thresh Hf max_it (map (fun _ => true) low) low high 0) as (G1 & G2 & G3 & G4 & G5 & G6); auto.
  { rewrite map_length; auto. }
  split; auto. split; auto. split; auto. split; auto. split; [unfold r, bisection_solve; lia|].
  intros HE i v HV. assert (E : existsb (fun b => b) (open_runs thresh (f (b_x r))) = false) by (apply G6; unfold r, bisection_solve in HE; lia).
  destruct (Rle_dec (Rabs v) thresh) as [|N]; auto. exfalso.
  assert (T : existsb (fun b => b) (open_runs thresh (f (b_x r))) = true); [|congruence].
  apply existsb_exists. exists true. split; auto. unfold open_runs. apply in_map_iff. exists (Fin v). split.
  - cbn. apply Rltb_true. lra.
  - eapply nth_error_In; eauto.
Qed.

Lemma bisection_run : forall f M i max_it thresh (Q : R -> R -> nat -> Prop) low high, same_length M f -> (i < M)%nat ->
  (forall xs l h j (b : bool), length xs = M -> Q l h j -> nth i xs 0 = (l + h) / 2 ->
     Q (if b && fltb (Fin 0) (nth i (f xs) NaN) then (l + h) / 2 else l)
       (if b && fltb (nth i (f xs) NaN) (Fin 0) then (l + h) / 2 else h) (S j)) ->
  length low = M -> length high = M ->
  Q (nth i low 0) (nth i high 0) 0%nat ->
  let r := bisection_solve f low high max_it thresh in
  exists l h j, Q l h j /\ nth i (b_x r) 0 = (l + h) / 2 /\ b_evals r = S j /\ (j <= max_it)%nat /\
    Q (nth i (b_low r) 0) (nth i (b_high r) 0) (S j).
Proof.
  intros. apply (bisect_run f M i thresh Q); auto. rewrite map_length; auto.
Qed.

Lemma not_both_signs : forall v : fl R, fltb (Fin 0) v = true -> fltb v (Fin 0) = true -> False.
Proof.
  intros v H1 H2. destruct v; cbn in *; try discriminate. apply Rltb_true in H1. apply Rltb_true in H2. lra.
Qed.

Lemma half_pow : forall w j, w / 2 ^ j / 2 = w / 2 ^ (S j).
Proof. intros. cbn. field. apply pow_nonzero. lra. Qed.

(** the returned value lies in the bracket, and away from its ends by the resolution *)
Lemma bisection_bracket : forall f M low high max_it thresh i, same_length M f -> length low = M -> length high = M ->
  (i < M)%nat -> nth i low 0 <= nth i high 0 ->
  let r := bisection_solve f low high max_it thresh in
  let w := (nth i high 0 - nth i low 0) / 2 ^ b_evals r in
  nth i low 0 + w <= nth i (b_x r) 0 <= nth i high 0 - w /\
  nth i low 0 <= nth i (b_low r) 0 <= nth i (b_high r) 0 /\ nth i (b_high r) 0 <= nth i high 0.
Proof.
  intros f M low high max_it thresh i Hf H1 H2 Hi HLH r w.
  set (l0 := nth i low 0) in *. set (h0 := nth i high 0) in *.
  destruct (bisection_run f M i max_it thresh (fun l h j => l0 <= l /\ h <= h0 /\ (h0 - l0) / 2 ^ j <= h - l) low high) as (l & h & j & G1 & G2 & G3 & G4 & G5); auto.
  - intros xs l h j b Hx (Q1 & Q2 & Q3) Hn.
    assert (P : 0 < 2 ^ j) by (apply pow_lt; lra).
    assert (W : 0 <= (h0 - l0) / 2 ^ j) by (apply Rmult_le_pos; [lra|left; apply Rinv_0_lt_compat; auto]).
    assert (HH := half_pow (h0 - l0) j).
    destruct (b && fltb (Fin 0) (nth i (f xs) NaN)) eqn:E1; destruct (b && fltb (nth i (f xs) NaN) (Fin 0)) eqn:E2; try lra.
    apply andb_prop in E1. apply andb_prop in E2. exfalso. eapply not_both_signs; [apply E1|apply E2].
  - fold l0 h0. cbn. lra.
  - fold r in G2, G3, G5. destruct G1 as (Q1 & Q2 & Q3). destruct G5 as (Q4 & Q5 & Q6).
    assert (P : 0 < 2 ^ S j) by (apply pow_lt; lra).
    assert (W : 0 <= (h0 - l0) / 2 ^ S j) by (apply Rmult_le_pos; [lra|left; apply Rinv_0_lt_compat; auto]).
    assert (HH := half_pow (h0 - l0) j).
    unfold w. rewrite G2, G3. lra.
Qed.

(** non-increasing real functions, one per run *)
Definition nonincreasing (g : R -> R) : Prop := forall x y, x <= y -> g y <= g x.
Definition per_run (gs : list (R -> R)) (xs : list R) : list (fl R) := map2 (fun g x => Fin (g x)) gs xs.

Lemma per_run_length : forall gs, same_length (length gs) (per_run gs).
Proof. intros gs x Hx. unfold per_run. rewrite map2_length. lia. Qed.
Lemma per_run_nth : forall gs xs i g, nth_error gs i = Some g -> length xs = length gs -> nth i (per_run gs xs) NaN = Fin (g (nth i xs 0)).
Proof.
  intros gs xs i g Hg HL. assert (i < length gs)%nat by (apply nth_error_Some; congruence).
  unfold per_run. rewrite nth_map2 with (da := g) (db := 0) by lia. f_equal.
  rewrite (nth_error_nth _ _ g Hg). auto.
Qed.

(** in a call with any number of runs every bracket keeps its root *)
Lemma bisection_keeps_root : forall gs low high max_it thresh i g root, length low = length gs -> length high = length gs ->
  nth_error gs i = Some g -> nonincreasing g -> nth i low 0 <= root <= nth i high 0 -> g root = 0 ->
  let r := bisection_solve (per_run gs) low high max_it thresh in
  nth i (b_low r) 0 <= root <= nth i (b_high r) 0.
Proof.
  intros gs low high max_it thresh i g root H1 H2 Hg Hm Hr H0 r.
  assert (Hi : (i < length gs)%nat) by (apply nth_error_Some; congruence).
  destruct (bisection_run (per_run gs) (length gs) i max_it thresh (fun l h j => l <= root <= h) low high) as (l & h & j & G1 & G2 & G3 & G4 & G5); auto.
  - apply per_run_length.
  - intros xs l h j b Hx HQ Hn. rewrite (per_run_nth gs xs i g Hg Hx), Hn. cbn.
    assert (A : Rltb 0 (g ((l + h) / 2)) = true -> (l + h) / 2 <= root).
    { intros T. apply Rltb_true in T. destruct (Rle_dec ((l + h) / 2) root); auto. exfalso. assert (g ((l + h) / 2) <= g root) by (apply Hm; lra). lra. }
    assert (B : Rltb (g ((l + h) / 2)) 0 = true -> root <= (l + h) / 2).
    { intros T. apply Rltb_true in T. destruct (Rle_dec root ((l + h) / 2)); auto. exfalso. assert (g root <= g ((l + h) / 2)) by (apply Hm; lra). lra. }
    destruct b; cbn; [|lra].
    destruct (Rltb 0 (g ((l + h) / 2))); destruct (Rltb (g ((l + h) / 2)) 0); try specialize (A eq_refl); try specialize (B eq_refl); lra.
Qed.

(** one run: distance to a root after j evaluations *)
Lemma bisect_one : forall g thresh root, nonincreasing g -> g root = 0 -> 0 <= thresh ->
  forall left l h ev, l <= root <= h ->
  let r := bisect (per_run [g]) thresh left [true] [l] [h] ev in
  exists x rt, b_x r = [x] /\ g rt = 0 /\ l <= rt <= h /\ Rabs (x - rt) <= (h - l) / 2 ^ (b_evals r - ev).
Proof.
  intros g thresh root Hm H0 Ht. induction left; intros l h ev Hr.
  - cbn -[Nat.sub pow]. exists ((l + h) / 2), root. split; auto. split; auto. split; auto. replace (S ev - ev)%nat with 1%nat by lia.
    rewrite pow_1. unfold Rabs. destruct (Rcase_abs _); lra.
  - cbn -[Nat.sub pow]. set (x := (l + h) / 2).
    assert (A : Rltb 0 (g x) = true -> x <= root).
    { intros T. apply Rltb_true in T. destruct (Rle_dec x root); auto. exfalso. assert (g x <= g root) by (apply Hm; lra). lra. }
    assert (B : Rltb (g x) 0 = true -> root <= x).
    { intros T. apply Rltb_true in T. destruct (Rle_dec root x); auto. exfalso. assert (g root <= g x) by (apply Hm; lra). lra. }
    destruct (Rltb thresh (Rabs (g x))) eqn:E; cbn -[Nat.sub pow].
    + apply Rltb_true in E.
      destruct (Rltb 0 (g x)) eqn:E1; destruct (Rltb (g x) 0) eqn:E2.
      * apply Rltb_true in E1. apply Rltb_true in E2. lra.
      * destruct (IHleft x h (S ev)) as (x' & rt & G1 & G2 & G3 & G4); [split; [auto|lra]|].
        destruct (bisect_stop (per_run [g]) 1 thresh (per_run_length [g]) left [true] [x] [h] (S ev)) as (_ & _ & _ & _ & HE & _); auto.
        cbn [map2 combine fst snd]. exists x', rt. split; auto. split; auto. unfold x in *. split; [lra|].
        eapply Rle_trans; [exact G4|].
        set (k := b_evals (bisect (per_run [g]) thresh left [true] [(l + h) / 2] [h] (S ev))) in *.
        replace (k - ev)%nat with (S (k - S ev)) by lia. rewrite <- half_pow.
        right. field. apply pow_nonzero; lra.
      * destruct (IHleft l x (S ev)) as (x' & rt & G1 & G2 & G3 & G4); [split; [lra|auto]|].
        destruct (bisect_stop (per_run [g]) 1 thresh (per_run_length [g]) left [true] [l] [x] (S ev)) as (_ & _ & _ & _ & HE & _); auto.
        cbn [map2 combine fst snd]. exists x', rt. split; auto. split; auto. unfold x in *. split; [lra|].
        eapply Rle_trans; [exact G4|].
        set (k := b_evals (bisect (per_run [g]) thresh left [true] [l] [(l + h) / 2] (S ev))) in *.
        replace (k - ev)%nat with (S (k - S ev)) by lia. rewrite <- half_pow.
        right. field. apply pow_nonzero; lra.
      * apply Rltb_false in E1. apply Rltb_false in E2. assert (g x = 0) as Z by lra. rewrite Z, Rabs_R0 in E. lra.
    + exists x, root. split; auto. split; auto. split; auto. replace (S ev - ev)%nat with 1%nat by lia.
      rewrite pow_1. unfold x, Rabs. destruct (Rcase_abs _); lra.
Qed.

Lemma bisection_accuracy : forall g low high max_it thresh root, nonincreasing g -> g root = 0 -> low <= root <= high -> 0 <= thresh ->
  let r := bisection_solve (per_run [g]) [low] [high] max_it thresh in
  exists x rt, b_x r = [x] /\ g rt = 0 /\ low <= rt <= high /\ Rabs (x - rt) <= (high - low) / 2 ^ b_evals r.
Proof.
  intros g low high max_it thresh root Hm H0 Hr Ht r.
  destruct (bisect_one g thresh root Hm H0 Ht max_it low high 0 Hr) as (x & rt & G). rewrite Nat.sub_0_r in G. exists x, rt. exact G.
Qed.
