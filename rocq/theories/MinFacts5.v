(** * The values of the multimodal objectives *)
From Coq Require Import List Arith Bool Reals Lra Lia.
From Verif Require Import Scalar Np NpFacts Nd RVec RVecFacts PdynOk Objectives MinSpec MinSpec2 MinFacts MinFacts2 MinFacts3 MinFacts4.
Import ListNotations.
Open Scope R_scope.

Lemma rsum_fold : forall l, Rsum l = fold_right Rplus 0 l.
Proof. reflexivity. Qed.
Lemma rastrigin_at : forall a x, Rastrigin 0 0 10 (map (Rmult a) x) = Ok (rastrigin_factor a x).
Proof.
  intros a x. unfold Rastrigin, rastrigin_factor. f_equal. rewrite map_length, map_map, rsum_fold. induction x as [|v x IH]; [cbn; lra|].
  cbn [length map fold_right]. rewrite S_INR. rewrite <- IH. replace (a * v - 0) with (a * v) by lra. lra.
Qed.
Lemma ackley_at : forall a x, (0 < length x)%nat -> Ackley 20 (2 / 10) (2 * PI) None (map (Rmult a) x) = Ok (ackley_factor a x).
Proof.
  intros a x Hx. unfold Ackley, ackley_factor. rewrite map_length. destruct (Nat.eqb_spec (length x) 0); [lia|]. cbn [bind]. f_equal.
  assert (P : 0 < INR (length x)) by now apply lt_0_INR. unfold norm. rewrite !map_map, !rsum_fold.
  rewrite (map_ext (fun v => (a * v - 0) ^ 2) (fun v => (a * v) ^ 2)) by (intros; f_equal; lra). rewrite (map_ext (fun v => cos (2 * PI * (a * v - 0))) (fun v => cos (2 * PI * (a * v)))) by (intros; do 2 f_equal; lra).
  set (S := fold_right Rplus 0 (map (fun v => (a * v) ^ 2) x)). set (C := fold_right Rplus 0 (map (fun v => cos (2 * PI * (a * v))) x)).
  replace (- (2 / 10) * sqrt (1 / INR (length x)) * sqrt S) with (- (1 / 5) * sqrt (S / INR (length x))).
  fold (Rsum (map (fun v => cos (2 * PI * (a * v))) x)) in C. fold C. replace (1 / INR (length x) * C) with (C / INR (length x)) by (field; lra). lra.
  replace (S / INR (length x)) with (1 / INR (length x) * S) by (field; lra). rewrite sqrt_mult_alt. lra. apply Rlt_le. apply Rdiv_lt_0_compat; lra.
Qed.
Lemma multi_value : forall V T alpha o x, (forall a, V (map (Rmult a) x) = Ok (T a)) -> multi_init alpha ZNone = Ok o ->
  multi_apply V o x = Ok (fold_right Rmult 1 (map T (scales alpha))).
Proof.
  intros V T alpha o x HV Hi. unfold multi_init in Hi. fold (scales alpha) in Hi. set (al := scales alpha) in *. clearbody al. injection Hi as <-. unfold multi_apply. cbn [fst snd].
  assert (G : forall l i y, (i + length l = length al)%nat -> multi_terms V l (SArr (repeat [0] (length al))) i x y = Ok (y * fold_right Rmult 1 (map T l))).
  { induction l as [|a l IH]; intros i y E; cbn [multi_terms length map fold_right] in *; [f_equal; lra|]. cbn [z_row]. assert (En : nth_error (repeat [0] (length al)) i = Some [0]).
    { destruct (nth_error (repeat [0] (length al)) i) as [r|] eqn:Er. apply nth_error_In, repeat_spec in Er. subst. auto. apply nth_error_None in Er. rewrite repeat_length in Er. lia. }
    rewrite En. cbn [bind]. assert (Eb : bminus x [0] = Ok x).
    { unfold bminus. destruct (Nat.eqb_spec (length x) (length [0])) as [e|_]. destruct x as [|v [|v' x]]; cbn in e; try discriminate. cbn. f_equal. f_equal. lra.
      assert (Em : map (fun v => v - 0) x = x) by (rewrite <- (map_id x) at 2; apply map_ext; intros; lra). destruct x as [|v [|v' x]]; cbn in Em |- *; auto; now rewrite Em. }
    rewrite Eb. cbn [bind]. rewrite HV. cbn [bind]. rewrite IH by lia. f_equal. lra. }
  rewrite G by auto. f_equal. lra.
Qed.
Theorem rastrigin_multi : forall alpha o x, multi_init alpha ZNone = Ok o -> Rastrigin_multimodal o x = Ok (fold_right Rmult 1 (map (fun a => rastrigin_factor a x) (scales alpha))).
Proof. intros alpha o x H. unfold Rastrigin_multimodal. apply (multi_value _ (fun a => rastrigin_factor a x)); auto. intros. apply rastrigin_at. Qed.
Theorem ackley_multi : forall alpha o x, multi_init alpha ZNone = Ok o -> (0 < length x)%nat -> Ackley_multimodal o x = Ok (fold_right Rmult 1 (map (fun a => ackley_factor a x) (scales alpha))).
Proof. intros alpha o x H Hx. unfold Ackley_multimodal. apply (multi_value _ (fun a => ackley_factor a x)); auto. intros. now apply ackley_at. Qed.
Theorem multi_example : exists o, multi_init (Some [1; 2]) ZNone = Ok o /\ Rastrigin_multimodal o [1; 0] = Ok 4 /\ Ackley_multimodal o [0; 0] = Ok 0.
Proof.
  eexists. split; [reflexivity|]. split.
  - rewrite (rastrigin_multi (Some [1; 2])) by reflexivity. f_equal. unfold scales, rastrigin_factor. cbn [map fold_right].
    replace (2 * PI * (1 * 1)) with (2 * PI) by ring. replace (2 * PI * (2 * 1)) with (0 + 2 * INR 2 * PI) by (cbn; ring). replace (2 * PI * (1 * 0)) with 0 by ring. replace (2 * PI * (2 * 0)) with 0 by ring.
    rewrite cos_period, cos_2PI, cos_0. lra.
  - rewrite (ackley_multi (Some [1; 2])) by (reflexivity || (cbn; lia)). f_equal. unfold scales. cbn [map fold_right].
    assert (E : ackley_factor 1 [0; 0] = 0); [|rewrite E; ring]. unfold ackley_factor. cbn [map fold_right length INR]. replace (2 * PI * (1 * 0)) with 0 by ring. rewrite cos_0.
    replace (((1 * 0) ^ 2 + ((1 * 0) ^ 2 + 0)) / (1 + 1)) with 0 by field. rewrite sqrt_0. replace (- (1 / 5) * 0) with 0 by ring. rewrite exp_0. replace ((1 + (1 + 0)) / (1 + 1)) with 1 by field. ring.
Qed.
