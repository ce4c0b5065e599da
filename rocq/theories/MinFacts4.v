(** * Facts about snowflake and the multimodal functions *)
From Coq Require Import List Arith Bool Reals Lra Lia.
From Verif Require Import Scalar Np NpFacts Nd RVec RVecFacts PdynOk Objectives MinSpec MinFacts MinFacts2 MinFacts3.
Import ListNotations.
Open Scope R_scope.

(** ** arctan2 *)
Lemma atan_pos : forall a b, 0 < a -> sqrt (a ^ 2 + b ^ 2) * cos (atan (b / a)) = a /\ sqrt (a ^ 2 + b ^ 2) * sin (atan (b / a)) = b.
Proof.
  intros a b Ha. rewrite cos_atan, sin_atan. assert (P : 0 < 1 + (b / a)²) by (pose proof (Rle_0_sqr (b / a)); lra). pose proof (sqrt_lt_R0 _ P) as Q.
  assert (E : sqrt (a ^ 2 + b ^ 2) = a * sqrt (1 + (b / a)²)). { replace (a ^ 2 + b ^ 2) with (a ^ 2 * (1 + (b / a)²)) by (unfold Rsqr; field; lra). rewrite sqrt_mult_alt by apply pow2_ge_0. rewrite sqrt_pow2 by lra. auto. }
  rewrite E. split; field; lra.
Qed.
Theorem arctan2_polar : forall a b, sqrt (a ^ 2 + b ^ 2) * cos (arctan2 b a) = a /\ sqrt (a ^ 2 + b ^ 2) * sin (arctan2 b a) = b.
Proof.
  intros a b. unfold arctan2. destruct (Rlt_dec 0 a) as [Ha|Ha]; [apply atan_pos; auto|]. destruct (Rlt_dec a 0) as [Ha'|Ha'].
  - destruct (atan_pos (- a) (- b)) as [A B]; [lra|]. replace ((- a) ^ 2 + (- b) ^ 2) with (a ^ 2 + b ^ 2) in * by ring. replace (- b / - a) with (b / a) in * by (field; lra).
    destruct (Rle_dec 0 b).
    + rewrite neg_cos, neg_sin. split; lra.
    + replace (atan (b / a) - PI) with (- (- atan (b / a) + PI)) by ring. rewrite cos_neg, sin_neg, neg_cos, neg_sin, cos_neg, sin_neg. split; lra.
  - assert (a = 0) by lra. subst a. replace (0 ^ 2 + b ^ 2) with (b ^ 2) by ring. destruct (Rlt_dec 0 b); [|destruct (Rlt_dec b 0)].
    + rewrite cos_PI2, sin_PI2, sqrt_pow2 by lra. split; ring.
    + rewrite cos_neg, sin_neg, cos_PI2, sin_PI2. replace (b ^ 2) with ((- b) ^ 2) by ring. rewrite sqrt_pow2 by lra. split; ring.
    + assert (b = 0) by lra. subst. replace (0 ^ 2) with 0 by ring. rewrite sqrt_0. split; ring.
Qed.
Lemma norm2 : forall a b, norm [a; b] = sqrt (a ^ 2 + b ^ 2).
Proof. intros. unfold norm. f_equal. cbn [map]. rewrite !Rsum_cons. change (Rsum []) with 0. ring. Qed.
Lemma rpow_nonneg : forall a p, 0 <= rpow a p.
Proof. intros. unfold rpow. destruct (Req_EM_T a 0). lra. left. apply exp_pos. Qed.
Lemma rpow_pos : forall a p, a <> 0 -> 0 < rpow a p.
Proof. intros. unfold rpow. destruct (Req_EM_T a 0). contradiction. apply exp_pos. Qed.

(** one of the three terms *)
Lemma term_min : forall r c, 0 <= r -> - (1 / 4) <= r ^ 8 - r ^ 4 + sqrt (Rabs c) * rpow r (3 / 10) /\
  (r ^ 8 - r ^ 4 + sqrt (Rabs c) * rpow r (3 / 10) = - (1 / 4) <-> r ^ 4 = 1 / 2 /\ r * c = 0).
Proof.
  intros r c Hr. replace (r ^ 8 - r ^ 4) with ((r ^ 4 - 1 / 2) ^ 2 - 1 / 4) by field. pose proof (pow2_ge_0 (r ^ 4 - 1 / 2)) as P1.
  pose proof (Rmult_le_pos _ _ (sqrt_pos (Rabs c)) (rpow_nonneg r (3 / 10))) as P2. split; [lra|]. split.
  - intros E. assert (Z1 : (r ^ 4 - 1 / 2) ^ 2 = 0) by lra. apply sq0 in Z1. assert (Z2 : sqrt (Rabs c) * rpow r (3 / 10) = 0) by lra. split; [lra|].
    apply Rmult_integral in Z2. destruct Z2 as [Z|Z].
    + apply sqrt_eq_0 in Z; [|apply Rabs_pos]. assert (c = 0). { destruct (Req_dec c 0) as [E0|E0]; auto. apply Rabs_no_R0 in E0. contradiction. } subst. ring.
    + destruct (Req_dec r 0) as [->|N]; [ring|]. pose proof (rpow_pos r (3 / 10) N). lra.
  - intros [E1 E2]. rewrite E1. assert (c = 0). { apply Rmult_integral in E2. destruct E2 as [->|]; auto. exfalso. replace (0 ^ 4) with 0 in E1 by ring. lra. } subst c. rewrite Rabs_R0, sqrt_0. field.
Qed.
Definition sterm (a b psi : R) : R := norm [a; b] ^ 8 - norm [a; b] ^ 4 + sqrt (Rabs (cos (arctan2 b a + psi))) * rpow (norm [a; b]) (3 / 10).
Lemma sterm_min : forall a b psi, - (1 / 4) <= sterm a b psi /\ (sterm a b psi = - (1 / 4) <-> (a ^ 2 + b ^ 2) ^ 2 = 1 / 2 /\ a * cos psi = b * sin psi).
Proof.
  intros a b psi. unfold sterm. destruct (term_min (norm [a; b]) (cos (arctan2 b a + psi)) (norm_nonneg _)) as [T1 T2]. split; auto. rewrite T2.
  assert (E : norm [a; b] * cos (arctan2 b a + psi) = a * cos psi - b * sin psi).
  { rewrite norm2, cos_plus. destruct (arctan2_polar a b) as [A B]. set (r := sqrt (a ^ 2 + b ^ 2)) in *. replace (r * (cos (arctan2 b a) * cos psi - sin (arctan2 b a) * sin psi)) with (r * cos (arctan2 b a) * cos psi - r * sin (arctan2 b a) * sin psi) by ring. rewrite A, B. auto. }
  rewrite E. replace (norm [a; b] ^ 4) with ((norm [a; b] ^ 2) ^ 2) by ring. rewrite norm2, pow2_sqrt by (pose proof (pow2_ge_0 a); pose proof (pow2_ge_0 b); lra). split; intros [H1 H2]; split; auto; lra.
Qed.
Lemma snowflake_form : forall al x y, snowflake al [x; y] = Ok (Rmin (Rmin (Rmin (Rmin 1 (sterm (al * x) (al * y) 0)) (sterm (al * x) (al * y) (PI / 3))) (sterm (al * x) (al * y) (PI * 2 / 3))) (8 / 10)).
Proof. intros. reflexivity. Qed.
Lemma min_is : forall a b v, Rmin a b = v -> a = v \/ b = v.
Proof. intros a b v H. unfold Rmin in H. destruct (Rle_dec a b); auto. Qed.
Lemma quarter : rpow (1 / 2) (1 / 4) ^ 4 = 1 / 2.
Proof.
  unfold rpow. destruct (Req_EM_T (1 / 2) 0); [lra|]. rewrite <- Rpower_pow by apply exp_pos. rewrite Rpower_mult. replace (1 / 4 * INR 4) with 1 by (cbn; field). apply Rpower_1. lra.
Qed.

(** the minimisers are exactly the six listed points *)
Theorem snowflake_min : forall al, al <> 0 -> (forall q w, length q = 2%nat -> snowflake al q = Ok w -> - (1 / 4) <= w) /\
  forall q, length q = 2%nat -> (snowflake al q = Ok (- (1 / 4)) <-> In q (snowflake_minima al)).
Proof.
  intros al Hal. split.
  - intros q w L H. apply two_points in L. destruct L as (x & y & ->). rewrite snowflake_form in H. apply ok_inj in H. subst w.
    repeat apply Rmin_glb; try apply sterm_min; lra.
  - intros q L. apply two_points in L. destruct L as (x & y & ->). rewrite snowflake_form. set (a := al * x). set (b := al * y). set (R0 := rpow (1 / 2) (1 / 4)).
    assert (HR : 0 < R0) by (apply rpow_pos; lra). assert (HR4 : R0 ^ 4 = 1 / 2) by apply quarter.
    assert (D : forall psi, (a ^ 2 + b ^ 2) ^ 2 = 1 / 2 /\ a * cos psi = b * sin psi <->
      [x; y] = [1 / al * R0 * cos (PI / 2 - psi); 1 / al * R0 * sin (PI / 2 - psi)] \/ [x; y] = [- (1 / al * R0) * cos (PI / 2 - psi); - (1 / al * R0) * sin (PI / 2 - psi)]).
    { intros psi. rewrite cos_shift, sin_shift. pose proof (sin2_cos2 psi) as SC. unfold Rsqr in SC. set (c := cos psi) in *. set (s := sin psi) in *. split.
      - intros [H1 H2]. set (t := a * s + b * c). assert (Ea : a = t * s). { unfold t. replace ((a * s + b * c) * s) with (a * (s * s) + (b * s) * c) by ring. rewrite <- H2. replace (a * (s * s) + a * c * c) with (a * (s * s + c * c)) by ring. rewrite SC. ring. }
        assert (Eb : b = t * c). { unfold t. replace ((a * s + b * c) * c) with ((a * c) * s + b * (c * c)) by ring. rewrite H2. replace (b * s * s + b * (c * c)) with (b * (s * s + c * c)) by ring. rewrite SC. ring. }
        assert (T4 : (t ^ 2) ^ 2 = (R0 ^ 2) ^ 2). { replace ((R0 ^ 2) ^ 2) with (R0 ^ 4) by ring. rewrite HR4, <- H1. rewrite Ea, Eb. replace ((t * s) ^ 2 + (t * c) ^ 2) with (t ^ 2 * (s * s + c * c)) by ring. rewrite SC. ring. }
        assert (T2 : (t ^ 2 - R0 ^ 2) * (t ^ 2 + R0 ^ 2) = 0) by (ring_simplify; ring_simplify in T4; lra).
        assert (T : t = R0 \/ t = - R0). { apply Rmult_integral in T2. pose proof (pow2_ge_0 t). assert (0 < R0 ^ 2) by (apply pow_lt; auto). destruct T2 as [T2|T2]; [|lra].
          assert (F : (t - R0) * (t + R0) = 0) by (ring_simplify; lra). apply Rmult_integral in F. destruct F; [left|right]; lra. }
        unfold a, b in Ea, Eb. assert (Ex : x = 1 / al * (t * s)) by (rewrite <- Ea; field; auto). assert (Ey : y = 1 / al * (t * c)) by (rewrite <- Eb; field; auto).
        rewrite Ex, Ey. destruct T as [T|T]; rewrite T; [left|right]; f_equal; try ring; f_equal; ring.
      - intros H. assert (E : exists t, (t = R0 \/ t = - R0) /\ a = t * s /\ b = t * c).
        { destruct H as [H|H]; injection H as -> ->; [exists R0|exists (- R0)]; (split; [auto|]); unfold a, b; split; field; auto. }
        destruct E as (t & Ht & -> & ->). split; [|ring]. replace ((t * s) ^ 2 + (t * c) ^ 2) with (t ^ 2 * (s * s + c * c)) by ring. rewrite SC. replace ((t ^ 2 * 1) ^ 2) with (t ^ 4) by ring. destruct Ht as [-> | ->]; [auto|]. replace ((- R0) ^ 4) with (R0 ^ 4) by ring. auto. }
    split.
    + intros H. apply ok_inj in H. assert (S : exists psi, In psi [0; PI / 3; PI * 2 / 3] /\ sterm a b psi = - (1 / 4)).
      { apply min_is in H. destruct H as [H|H]; [|lra]. apply min_is in H. destruct H as [H|H]; [|eexists; split; [|exact H]; cbn; auto]. apply min_is in H. destruct H as [H|H]; [|eexists; split; [|exact H]; cbn; auto].
        apply min_is in H. destruct H as [H|H]; [lra|]. eexists; split; [|exact H]; cbn; auto. }
      destruct S as (psi & HI & E). apply sterm_min in E. apply D in E. unfold snowflake_minima. fold R0. cbn [map fst snd].
      cbn [In] in HI. destruct HI as [<-|[<-|[<-|[]]]].
      * rewrite Rminus_0_r in E. destruct E as [-> | ->]; cbn [In]; auto.
      * destruct E as [-> | ->]; cbn [In]; auto.
      * replace (PI * 2 / 3) with (2 * PI / 3) in E by field. destruct E as [-> | ->]; cbn [In]; auto 8.
    + intros H. unfold snowflake_minima in H. fold R0 in H. cbn [map fst snd In] in H.
      assert (S : exists psi, In psi [0; PI / 3; PI * 2 / 3] /\ sterm a b psi = - (1 / 4)).
      { destruct H as [H|[H|[H|[H|[H|[H|[]]]]]]]; symmetry in H.
        1,2: exists 0; split; [cbn; auto|]; apply sterm_min, D; rewrite Rminus_0_r; auto.
        1,2: exists (PI / 3); split; [cbn; auto|]; apply sterm_min, D; auto.
        1,2: exists (PI * 2 / 3); split; [cbn; auto|]; apply sterm_min, D; replace (PI * 2 / 3) with (2 * PI / 3) by field; auto. }
      destruct S as (psi & HI & E). f_equal. apply Rle_antisym.
      * rewrite <- E. cbn [In] in HI. destruct HI as [<-|[<-|[<-|[]]]].
        -- eapply Rle_trans; [apply Rmin_l|]. eapply Rle_trans; [apply Rmin_l|]. eapply Rle_trans; [apply Rmin_l|]. apply Rmin_r.
        -- eapply Rle_trans; [apply Rmin_l|]. eapply Rle_trans; [apply Rmin_l|]. apply Rmin_r.
        -- eapply Rle_trans; [apply Rmin_l|]. apply Rmin_r.
      * repeat apply Rmin_glb; try apply sterm_min; lra.
Qed.

(** ** the multimodal functions *)
Lemma multi_product : forall V, (forall u v, V u = Ok v -> 0 <= v /\ (v = 0 <-> u = repeat 0 (length u))) ->
  forall al z x i y w, 0 <= y -> multi_terms V al z i x y = Ok w ->
  0 <= w /\ (w = 0 <-> y = 0 \/ exists j a r u, nth_error al j = Some a /\ z_row z (i + j) = Ok r /\ bminus x r = Ok u /\ (a = 0 \/ u = repeat 0 (length u))).
Proof.
  intros V HV al z x. induction al as [|a al IH]; intros i y w Hy H; cbn [multi_terms] in H.
  - apply ok_inj in H. subst w. split; auto. split; auto. intros [E|(j & a & r & u & E & _)]; auto. destruct j; discriminate.
  - apply bind_ok in H. destruct H as (r & Er & H). apply bind_ok in H. destruct H as (u & Eu & H). apply bind_ok in H. destruct H as (v & Ev & H).
    destruct (HV _ _ Ev) as [V1 V2]. destruct (IH (S i) (y * v) w) as [W1 W2]; auto. { apply Rmult_le_pos; auto. } split; auto. rewrite W2.
    assert (Z : map (Rmult a) u = repeat 0 (length (map (Rmult a) u)) <-> a = 0 \/ u = repeat 0 (length u)).
    { rewrite map_length. split.
      - intros E. destruct (Req_dec a 0) as [|N]; auto. right. apply all_repeat. intros t Ht. apply (in_map (Rmult a)) in Ht. rewrite E in Ht. apply repeat_spec in Ht. apply Rmult_integral in Ht. destruct Ht; auto. contradiction.
      - intros E. rewrite <- (map_length (Rmult a) u). apply all_repeat. intros t Ht. apply in_map_iff in Ht. destruct Ht as (t' & <- & Ht'). destruct E as [->|E]; [ring|]. rewrite E in Ht'. apply repeat_spec in Ht'. subst. ring. }
    split.
    + intros [E|(j & a' & r' & u' & E1 & E2 & E3 & E4)].
      * apply Rmult_integral in E. destruct E as [E|E]; auto. right. exists 0%nat, a, r, u. rewrite Nat.add_0_r. split; auto. split; auto. split; auto. apply Z, V2. auto.
      * right. exists (S j), a', r', u'. rewrite <- plus_n_Sm. auto.
    + intros [E|(j & a' & r' & u' & E1 & E2 & E3 & E4)].
      * left. rewrite E. ring.
      * destruct j as [|j]; cbn [nth_error] in E1.
        -- injection E1 as <-. rewrite Nat.add_0_r, Er in E2. injection E2 as <-. rewrite Eu in E3. injection E3 as <-. left. apply Z, V2 in E4. rewrite E4. ring.
        -- right. exists j, a', r', u'. rewrite <- plus_n_Sm in E2. auto.
Qed.
Lemma rastrigin_V : forall u v, Rastrigin 0 0 10 u = Ok v -> 0 <= v /\ (v = 0 <-> u = repeat 0 (length u)).
Proof.
  intros u v H. destruct (rastrigin_min 0 0 10 (length u) ltac:(lra)) as [[E B] U]. split; [apply (B u v H)|]. split; intros Z.
  - apply U. rewrite repeat_length; auto. rewrite H, Z. auto.
  - rewrite Z, E in H. apply ok_inj in H. auto.
Qed.
Lemma ackley_V : forall u v, Ackley 20 (2 / 10) (2 * PI) None u = Ok v -> 0 <= v /\ (v = 0 <-> u = repeat 0 (length u)).
Proof.
  intros u v H. destruct u as [|u0 u]; [discriminate|]. set (y := u0 :: u) in *. destruct (ackley_min 20 (2 / 10) (2 * PI) None (length y) ltac:(cbn; lia) ltac:(lra) ltac:(lra) ltac:(discriminate)) as [(L & E & B) U].
  split; [apply (B y v eq_refl H)|]. specialize (U ltac:(lra) ltac:(lra)). split; intros Z.
  - apply U. rewrite repeat_length; auto. rewrite H, Z. auto.
  - rewrite Z, E in H. apply ok_inj in H. auto.
Qed.
(** a two-dimensional array has rows of one length *)
Definition rectangular (rows : list (list R)) : Prop := exists n, forall r, In r rows -> length r = n.
Definition proper (z : zarg) : Prop := match z with ZArr rows => rectangular rows | _ => True end.
Lemma concat_length : forall (rows : list (list R)) n, (forall r, In r rows -> length r = n) -> length (concat rows) = (length rows * n)%nat.
Proof. induction rows as [|r rows IH]; intros n H; auto. cbn. rewrite app_length, (H r) by (left; auto). rewrite (IH n); auto. intros r' Hr'. apply H. right; auto. Qed.
Lemma stored_rows : forall alpha z al st, proper z -> multi_init alpha z = Ok (al, st) ->
  al <> [] /\ ((exists rows, st = SList rows) \/ st = SArr (repeat [0] (length al)) \/ exists v, z = ZArr [[v]] /\ st = SArr [[v]]).
Proof.
  intros alpha z al st Hp H. unfold multi_init in H. set (al0 := match alpha with Some (a :: l) => a :: l | _ => [1] end) in *.
  assert (N : al0 <> []) by (unfold al0; destruct alpha as [[|a l]|]; discriminate). clearbody al0.
  destruct z as [|[|row rows]|rows]; try (injection H as <- <-; split; auto; right; left; reflexivity). injection H as <- <-. split; auto. left. eauto.
  destruct (concat rows) as [|v [|v' c]] eqn:Ec; [|destruct (Req_EM_T v 0)|discriminate]; injection H as <- <-; split; auto.
  right; right. exists v. destruct Hp as (k & Hn). pose proof (concat_length rows k Hn) as L. rewrite Ec in L. cbn in L. symmetry in L. apply Nat.eq_mul_1 in L. destruct L as [L1 L2]. destruct rows as [|r [|r' rows]]; try discriminate.
  cbn in Ec. rewrite app_nil_r in Ec. subst r. auto.
Qed.
Lemma bminus_one : forall x b u, bminus x [b] = Ok u -> (u = repeat 0 (length u) <-> x = repeat b (length x)).
Proof. intros x b u H. destruct (bminus_ok x [b]) as (u' & E & L & Z); auto. rewrite H in E. injection E as <-. exact Z. Qed.
Theorem multi_min : forall V alpha z o x w, (forall u v, V u = Ok v -> 0 <= v /\ (v = 0 <-> u = repeat 0 (length u))) -> proper z ->
  multi_init alpha z = Ok o -> multi_apply V o x = Ok w ->
  0 <= w /\ (w = 0 <-> exists j a b, nth_error (fst o) j = Some a /\ z_row (snd o) j = Ok [b] /\ (a = 0 \/ x = repeat b (length x))).
Proof.
  intros V alpha z [al st] x w HV Hp Hi H. unfold multi_apply in H. cbn [fst snd] in *. destruct (multi_product V HV al st x 0 1 w ltac:(lra) H) as [W1 W2]. split; auto. rewrite W2. clear W1 W2.
  destruct (stored_rows _ _ _ _ Hp Hi) as [_ HS]. assert (HR : forall j r, z_row st j = Ok r -> exists b, r = [b]).
  { intros j r E. destruct HS as [(rows & ->)|[->|(v & _ & ->)]]; cbn in E; [discriminate| |]; (destruct (nth_error _ j) as [r'|] eqn:En; [|discriminate]); injection E as <-; apply nth_error_In in En. apply repeat_spec in En. eauto. destruct En as [<-|[]]. eauto. }
  split.
  - intros [E|(j & a & r & u & E1 & E2 & E3 & E4)]; [lra|]. destruct (HR _ _ E2) as (b & ->). exists j, a, b. split; auto. split; auto. destruct E4 as [E4|E4]; auto. right. apply (bminus_one _ _ _ E3). auto.
  - intros (j & a & b & E1 & E2 & E3). right. destruct (bminus_ok x [b]) as (u & Eu & Lu & Zu); auto. exists j, a, [b], u. split; auto. split; auto. split; auto. destruct E3 as [E3|E3]; auto. right. apply Zu. auto.
Qed.
(** the default: one factor per entry of alpha, all centred at the origin; always defined *)
Theorem multi_default : forall V alpha o, (forall u, (0 < length u)%nat -> exists v, V u = Ok v) -> multi_init alpha ZNone = Ok o ->
  forall x, (0 < length x)%nat -> exists w, multi_apply V o x = Ok w.
Proof.
  intros V alpha o HV Hi x Hx. unfold multi_init in Hi. set (al := match alpha with Some (a :: l) => a :: l | _ => [1] end) in *. clearbody al. injection Hi as <-. unfold multi_apply. cbn [fst snd].
  assert (G : forall l i y, (i + length l = length al)%nat -> exists w, multi_terms V l (SArr (repeat [0] (length al))) i x y = Ok w); [|apply G; auto].
  induction l as [|a l IH]; intros i y E; cbn [multi_terms length] in *; [eauto|]. cbn [z_row]. assert (En : nth_error (repeat [0] (length al)) i = Some [0]).
  { destruct (nth_error (repeat [0] (length al)) i) as [r|] eqn:Er. apply nth_error_In, repeat_spec in Er. subst. auto. apply nth_error_None in Er. rewrite repeat_length in Er. lia. }
  rewrite En. cbn [bind]. destruct (bminus_ok x [0]) as (u & -> & Lu & _); auto. cbn [bind]. destruct (HV (map (Rmult a) u)) as (v & ->). rewrite map_length, Lu. auto. cbn [bind]. apply IH. lia.
Qed.
(** centres given by the user *)
Theorem multi_array_raises : forall alpha rows, (2 <= length (concat rows))%nat -> multi_init alpha (ZArr rows) = Err ValueError.
Proof. intros alpha rows H. unfold multi_init. destruct (concat rows) as [|v [|v' c]]; cbn in H; try lia. auto. Qed.
Theorem multi_list_raises : forall V alpha rows, rows <> [] -> exists o, multi_init alpha (ZList rows) = Ok o /\ forall x, multi_apply V o x = Err TypeError.
Proof.
  intros V alpha rows H. destruct rows as [|r rows]; [congruence|]. eexists. split; [reflexivity|]. intros x. unfold multi_apply. cbn [fst snd]. destruct alpha as [[|a l]|]; reflexivity.
Qed.
