(** * Post-processing bounds the positions *)
From Coq Require Import List Arith Reals Lra ZArith.
From Verif Require Import Scalar Np NpFacts State Pdyn PdynFacts PdynStep PdynRun Exec PdynOk PostProc Script.
Import ListNotations.
Open Scope R_scope.

Ltac mm :=
  unfold Rmin; repeat (match goal with |- context [Rle_dec ?a ?b] => destruct (Rle_dec a b) end);
  unfold Rmax; repeat (match goal with |- context [Rle_dec ?a ?b] => destruct (Rle_dec a b) end); try lra.

Lemma float_max_pos : 0 < float_max.
Proof. unfold float_max. apply IZR_lt. reflexivity. Qed.

Lemma np_clip_fin : forall t x, 0 <= t -> np_clip (Fin (- t)) (Fin t) (Fin x) = Fin (Rmax (- t) (Rmin t x)).
Proof.
  intros t x Ht. unfold np_clip, fmax, fmin. cbn [is_nan orb fltb kltb KOps_R].
  destruct (Rltb x (-t)) eqn:E1; cbn [is_nan orb fltb kltb KOps_R];
  [destruct (Rltb t (-t)) eqn:E2 | destruct (Rltb t x) eqn:E2];
  try apply Rltb_true in E1; try apply Rltb_false in E1; try apply Rltb_true in E2; try apply Rltb_false in E2; f_equal; mm.
Qed.

Lemma pp_default_spec : forall t a, 0 <= t <= float_max -> exists x,
  pp_default t false a = Fin x /\ - t <= x <= t /\
  match a with NaN => x = t | PInf => x = t | NInf => x = - t | Fin y => x = Rmax (- t) (Rmin t y) end.
Proof.
  intros t a [H1 H2]. unfold pp_default. cbv iota.
  assert (forall y, - t <= Rmax (- t) (Rmin t y) <= t) as B.
  { intros. mm. }
  destruct a as [y| | |]; cbn [nan_to_num]; rewrite np_clip_fin by auto; eexists; (split; [reflexivity|]); (split; [apply B|]); auto;
    mm.
Qed.

Lemma pp_default_in_range : forall t y, 0 <= t <= float_max -> - t <= y <= t -> pp_default t false (Fin y) = Fin y.
Proof.
  intros t y H1 H2. destruct (pp_default_spec t (Fin y) H1) as (x & E & _ & ->). rewrite E. f_equal.
  mm.
Qed.

Lemma pp_default_idem : forall t a, 0 <= t <= float_max ->
  pp_default t false (pp_default t false a) = pp_default t false a.
Proof.
  intros t a H. destruct (pp_default_spec t a H) as (x & -> & Hx & _). apply pp_default_in_range; auto.
Qed.

Lemma pp_copy_spec : forall t a, 0 <= t <= float_max ->
  pp_default t true a = match a with NaN => NaN | _ => pp_default t false a end.
Proof.
  intros t a [H1 H2]. destruct a as [y| | |].
  - reflexivity.
  - unfold pp_default, nan_to_num. rewrite np_clip_fin by auto. unfold np_clip, fmax, fmin. cbn [is_nan orb fltb]. f_equal.
    mm.
  - unfold pp_default, nan_to_num. rewrite np_clip_fin by auto. unfold np_clip, fmax, fmin. cbn [is_nan orb fltb kltb KOps_R].
    destruct (Rltb t (-t)) eqn:E; try apply Rltb_true in E; try apply Rltb_false in E; f_equal; try lra.
    mm.
  - reflexivity.
Qed.

Section Step.
  Context {K V : Type} {O : KOps K}.

  (** every position after a step is the image of some point under post_process *)
  Lemma positions_pp : forall (c : cfg K V) s log (o : orc V) s' m n row v, exec c s log -> perms_valid o s -> step c o s = Ok s' ->
    nth_error (s_x s') m = Some row -> nth_error row n = Some v -> exists w, v = c_pp c w.
  Proof.
    intros c s log o s' m n row v E P HS Hr Hv.
    destruct (step_ok_char c o s s' (exec_wf _ _ _ E) (perms_valid_ok _ _ P) HS) as (W' & (EM & _) & _ & HR).
    assert (Hm : (m < s_M s)%nat).
    { rewrite <- EM. rewrite <- (proj1 (w_x _ _ W')). eapply nth_error_lt; eauto. }
    destruct (row_at_Some c s m (exec_wf _ _ _ E) Hm) as (r & Er & _).
    destruct (HR m r Er) as (xr & er & nf & r' & _ & _ & Hp & Er').
    apply row_at_lt in Er'. destruct Er' as (_ & Hx & _). rewrite Hr in Hx. inversion Hx; subst row.
    unfold run_post in Hp. apply bind_ok in Hp. destruct Hp as ([j e0] & _ & Hp).
    apply bind_ok in Hp. destruct Hp as (p & _ & Hp). apply bind_ok in Hp. destruct Hp as (e & _ & Hp).
    inversion Hp; subst r'. cbn [r_x] in *. rewrite nth_error_map in Hv.
    destruct (nth_error xr n) as [w|]; [|discriminate]. inversion Hv. eauto.
  Qed.
End Step.

Lemma positions_bounded : forall (K : Type) (O : KOps K) (c : cfg K (list (fl R))) t s log (o : orc (list (fl R))) s' m n i row v a,
  0 <= t <= float_max -> c_pp c = pp_point t false ->
  exec c s log -> perms_valid o s -> step c o s = Ok s' ->
  nth_error (s_x s') m = Some row -> nth_error row n = Some v -> nth_error v i = Some a ->
  exists x, a = Fin x /\ - t <= x <= t.
Proof.
  intros K O c t s log o s' m n i row v a Ht Hpp E P HS H1 H2 H3.
  destruct (positions_pp c s log o s' m n row v E P HS H1 H2) as [w ->].
  rewrite Hpp in H3. unfold pp_point in H3. rewrite nth_error_map in H3. destruct (nth_error w i) as [b|]; [|discriminate].
  inversion H3. destruct (pp_default_spec t b Ht) as (x & E' & Hx & _). rewrite E'. eauto.
Qed.
