(** * Facts on the exponential samplers and the torch backend *)
From Coq Require Import List Arith Bool Reals Lra Lia FunctionalExtensionality.
From Verif Require Import Scalar Np NpFacts RVec ConsSpec MomentSpec MomentFacts State Pdyn Exec PostProc PostFacts Sched SchedFacts EssFacts ParticleInit ParticleInitFacts Samplers SamplerSpec.
Import ListNotations.
Open Scope R_scope.

Lemma coord_mul : forall a b i, coord i (map2 Rmult a b) = coord i a * coord i b \/ length a <> length b.
Proof.
  unfold coord. induction a as [|x a IH]; intros [|y b] i; cbn [map2 length]; try (right; cbn; lia).
  - left. destruct i; cbn; ring.
  - destruct i; cbn [nth]; [left; reflexivity|]. destruct (IH b i); [left; auto|right; auto].
Qed.
Lemma exponential_white : forall Om (A : average Om) d e s, exponentials A d e -> fair_signs A d e s -> white A d 2 (fun w => exponential_draw (e w) (s w)).
Proof.
  intros Om A d e s [LE ME] [LS MS]. unfold exponential_draw.
  assert (C : forall w i, coord i (map2 Rmult (e w) (s w)) = coord i (e w) * coord i (s w)).
  { intros w i. destruct (coord_mul (e w) (s w) i) as [|N]; auto. destruct (LE w), (LS w). lia. }
  split; [|split].
  - intros w. destruct (LE w), (LS w). rewrite map2_length. lia.
  - intros i Hi. destruct (ME i Hi) as (M1 & _). destruct (MS (fun w => coord i (e w)) 1) with (i := i) (j := i) as [X _]; auto. { intros; congruence. }
    eapply mean_eq; [apply X| |reflexivity]. intros w. cbv beta. rewrite C. ring.
  - intros i j Hi Hj. destruct (ME i Hi) as (_ & M2 & M3). destruct (Nat.eqb_spec i j) as [<-|ne].
    + destruct (MS (fun w => coord i (e w) ^ 2) 2) with (i := i) (j := i) as [_ X]; auto. { intros; congruence. }
      rewrite Nat.eqb_refl in X. eapply mean_eq; [apply X| |reflexivity]. intros w. cbv beta. rewrite C. ring.
    + destruct (M3 j Hj) as (r & Hr). destruct (MS (fun w => coord i (e w) * coord j (e w)) r) with (i := i) (j := j) as [_ X]; auto. { intros w w' E. rewrite E. reflexivity. }
      apply Nat.eqb_neq in ne. rewrite ne in X. eapply mean_eq; [apply X| |reflexivity]. intros w. cbv beta. rewrite !C. ring.
Qed.
(** the torch sampler draws the signs from bits *)
Lemma torch_signs : forall e b, Forall (fun k => k = 0%nat \/ k = 1%nat) b ->
  exponential_torch_draw e b = exponential_draw e (map (fun k => if (k =? 0)%nat then -1 else 1) b).
Proof.
  intros e b H. unfold exponential_torch_draw, exponential_draw. f_equal. apply map_ext_in. intros k Hk. rewrite Forall_forall in H.
  destruct (H k Hk) as [E|E]; rewrite E; cbn; lra.
Qed.

(** runs with the torch post-processing are runs with the default one *)
Lemma torch_cfg : forall K (O : KOps K) (c : cfg K (list (fl R))) dmax t, 0 <= t <= dmax -> t <= float_max -> c_pp c = map (pp_torch dmax t) -> c_pp c = pp_point t false.
Proof. intros K O c dmax t H H' ->. apply functional_extensionality. intros v. apply map_ext. intros a. apply torch_pp_numpy; auto. Qed.
Lemma torch_bounded : forall (K : Type) (O : KOps K) (c : cfg K (list (fl R))) dmax t s log (o : orc (list (fl R))) s' m n i row v a,
  0 <= t <= dmax -> c_pp c = map (pp_torch dmax t) -> exec c s log -> perms_valid o s -> step c o s = Ok s' ->
  nth_error (s_x s') m = Some row -> nth_error row n = Some v -> nth_error v i = Some a -> exists x, a = Fin x /\ - t <= x <= t.
Proof.
  intros K O c dmax t s log o s' m n i row v a Ht Hc E P HS Hr Hv Ha. destruct (positions_pp c s log o s' m n row v E P HS Hr Hv) as (w & ->). rewrite Hc in Ha.
  rewrite nth_error_map in Ha. destruct (nth_error w i) as [b|]; [|discriminate]. injection Ha as <-. destruct (torch_pp dmax t b Ht) as (x & -> & B & _). eauto.
Qed.

Lemma torch_ess : forall V eta maximum max_it (s : st R V), length (s_energy s) = s_M s -> / 100000 <= maximum ->
  ess_update_torch eta maximum (/ 100000) max_it s = ess_update eta maximum max_it s.
Proof.
  intros V eta maximum max_it s HL Hm. unfold ess_update_torch, ess_update, ess_solve, ess_minimum, ess_thresh. set (val := b_x _). f_equal.
  unfold ensure_max, on_param. 
  assert (LV : length val = s_M s).
  { unfold val. eapply bisection_stop; [|rewrite repeat_length; reflexivity|rewrite repeat_length; reflexivity]. rewrite <- HL. apply ess_gaps_length. }
  assert (X : map (map (fmin (Fin maximum))) (map (fun v => [Fin v]) val) = map (fun v => [Fin v]) val).
  { rewrite map_map. apply map_ext_in. intros v Hv. cbn [map]. f_equal. apply In_nth with (d := 0) in Hv. destruct Hv as (i & Hi & Hv).
    assert (B := ess_range eta maximum max_it (s_M s) (s_energy s) i HL ltac:(lia) Hm). cbv zeta in B. unfold ess_solve, ess_minimum, ess_thresh in B. fold val in B. rewrite Hv in B.
    rewrite fmin_fin. rewrite Rmin_right; auto. lra. }
  cbn [s_alpha set_alpha]. rewrite X. destruct s; reflexivity.
Qed.
Lemma torch_ess_range : forall V eta maximum minimum max_it (s s' : st R V) i row, length (s_energy s) = s_M s -> minimum <= maximum ->
  ess_update_torch eta maximum minimum max_it s = Ok s' -> (i < s_M s)%nat -> nth_error (s_alpha s') i = Some row ->
  exists a, row = [Fin a] /\ minimum + (maximum - minimum) / 2 ^ (max_it + 1) <= a <= maximum.
Proof.
  intros V eta maximum minimum max_it s s' i row HL Hm HU Hi Hr. unfold ess_update_torch in HU. set (B := bisection_solve _ _ _ _ _) in HU. inversion HU; subst s'; clear HU. cbn in Hr.
  rewrite nth_error_map in Hr. destruct (nth_error (b_x B) i) as [v|] eqn:E; [|discriminate]. injection Hr as <-. exists v. split; auto.
  assert (HV : nth i (b_x B) 0 = v) by (apply nth_error_nth; auto).
  assert (L1 : length (repeat minimum (s_M s)) = s_M s) by apply repeat_length. assert (L2 : length (repeat maximum (s_M s)) = s_M s) by apply repeat_length.
  assert (SL : same_length (s_M s) (ess_gaps eta (s_energy s))) by (rewrite <- HL; apply ess_gaps_length).
  destruct (bisection_stop (ess_gaps eta (s_energy s)) _ _ _ max_it (/ 100) SL L1 L2) as (_ & _ & _ & _ & HE & _).
  assert (Q := bisection_bracket (ess_gaps eta (s_energy s)) _ _ _ max_it (/ 100) i SL L1 L2 Hi).
  assert (N1 : nth i (repeat minimum (s_M s)) 0 = minimum) by (rewrite nth_indep with (d' := minimum) by lia; apply nth_repeat).
  assert (N2 : nth i (repeat maximum (s_M s)) 0 = maximum) by (rewrite nth_indep with (d' := maximum) by lia; apply nth_repeat).
  rewrite N1, N2 in Q. destruct (Q Hm) as (B1 & _). fold B in B1, HE. rewrite HV in B1. set (ev := b_evals B) in *.
  assert (P : 0 < 2 ^ ev) by (apply pow_lt; lra). assert (/ 2 ^ (max_it + 1) <= / 2 ^ ev) by (apply p2_dec; lia).
  assert (0 < / 2 ^ ev) by (apply Rinv_0_lt_compat; auto). unfold Rdiv in *. split; [|nra].
  eapply Rle_trans; [|apply B1]. apply Rplus_le_compat_l. apply Rmult_le_compat_l; lra.
Qed.

Lemma torch_white : forall Om (A : average Om) d e (b : Om -> list nat), exponentials A d e -> (forall w, Forall (fun k => k = 0%nat \/ k = 1%nat) (b w)) ->
  fair_signs A d e (fun w => map (fun k => if (k =? 0)%nat then -1 else 1) (b w)) -> white A d 2 (fun w => exponential_torch_draw (e w) (b w)).
Proof.
  intros Om A d e b HE HB HS. pose proof (exponential_white Om A d e _ HE HS) as (W1 & W2 & W3).
  assert (X : forall w, exponential_torch_draw (e w) (b w) = exponential_draw (e w) (map (fun k => if (k =? 0)%nat then -1 else 1) (b w))) by (intros; apply torch_signs; auto).
  split; [|split].
  - intros w. rewrite X. apply W1.
  - intros i Hi. eapply mean_eq; [apply (W2 i Hi)| |reflexivity]. intros w. rewrite X. reflexivity.
  - intros i j Hi Hj. eapply mean_eq; [apply (W3 i j Hi Hj)| |reflexivity]. intros w. rewrite X. reflexivity.
Qed.
