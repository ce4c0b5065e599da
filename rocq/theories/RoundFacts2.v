(** * Error of the consensus point: default and rescaled *)
From Coq Require Import List Arith Bool Reals Lia Lra Psatz.
From Verif Require Import Np RVec RVecFacts Rounding RoundSpec RoundFacts.
Import ListNotations.
Open Scope R_scope.

Lemma dist1_map : forall A (f h : A -> R) l, dist1 (map f l) (map h l) = Rsum (map (fun x => Rabs (f x - h x)) l).
Proof. intros. unfold dist1. f_equal. induction l as [|a l IH]; cbn; [auto|rewrite IH; auto]. Qed.
Lemma dist1_triangle : forall a b c, length a = length b -> length b = length c -> dist1 a c <= dist1 a b + dist1 b c.
Proof.
  unfold dist1. induction a as [|x a IH]; intros [|y b] [|z c] H1 H2; try discriminate; cbn [map2]; [unfold Rsum; cbn; lra|]. rewrite !Rsum_cons.
  specialize (IH b c ltac:(cbn in *; lia) ltac:(cbn in *; lia)). replace (x - z) with ((x - y) + (y - z)) by ring. pose proof (Rabs_triang (x - y) (y - z)). lra.
Qed.
Lemma normalised : forall A (f h : A -> R) l, (forall x, In x l -> 0 <= h x) -> 0 < Rsum (map f l) -> 0 < Rsum (map h l) ->
  dist1 (map (fun x => f x / Rsum (map f l)) l) (map (fun x => h x / Rsum (map h l)) l) <= 2 * Rsum (map (fun x => Rabs (f x - h x)) l) / Rsum (map f l).
Proof.
  intros A f h l Hh HS HG. rewrite dist1_map. set (S := Rsum (map f l)) in *. set (G := Rsum (map h l)) in *.
  apply Rle_trans with (Rsum (map (fun x => Rabs (f x - h x) / S + Rabs (G - S) / (S * G) * h x) l)).
  - apply Rsum_map_le. intros x Hx. replace (f x / S - h x / G) with ((f x - h x) / S + (G - S) / (S * G) * h x) by (field; lra).
    eapply Rle_trans; [apply Rabs_triang|]. unfold Rdiv. rewrite !Rabs_mult, (Rabs_right (h x)) by (apply Rle_ge; auto).
    rewrite (Rabs_right (/ S)) by (left; apply Rinv_0_lt_compat; auto). rewrite (Rabs_right (/ (S * G))) by (left; apply Rinv_0_lt_compat, Rmult_lt_0_compat; auto). lra.
  - rewrite Rsum_map_plus, Rsum_map_scal, Rsum_map_div. fold G.
    assert (D : Rabs (G - S) <= Rsum (map (fun x => Rabs (f x - h x)) l)). { rewrite Rabs_minus_sym. unfold S, G. rewrite <- Rsum_map_minus. apply Rsum_abs. }
    replace (Rabs (G - S) / (S * G) * G) with (Rabs (G - S) / S) by (field; lra).
    set (T := Rsum (map (fun x => Rabs (f x - h x)) l)) in *. replace (2 * T / S) with (T / S + T / S) by (field; lra). apply Rplus_le_compat_l, Rmult_le_compat_r; auto. left; apply Rinv_0_lt_compat; auto.
Qed.

Section Two.
  Variables (u v eta : R) (rnd Exp Log : R -> R) (sum : list R -> R).
  Hypothesis AR : arithmetic u v eta rnd Exp Log sum.

  Lemma ranges : 0 <= u /\ 0 <= v /\ 0 <= eta <= u. Proof. destruct AR; auto. Qed.
  Lemma len_pos : forall (A : Type) (l : list A), l <> [] -> 1 <= INR (length l).
  Proof. intros A [|a l] H; [congruence|]. cbn [length]. rewrite S_INR. pose proof (pos_INR (length l)). lra. Qed.
  Lemma exp_sum_pos : forall A (f : A -> R) l, l <> [] -> 0 < Rsum (map (fun x => exp (f x)) l).
  Proof. intros A f [|a l] H; [congruence|]. apply (Rsum_map_pos _ (fun x => exp (f x)) _ a); [intros; left; apply exp_pos|left; auto|apply exp_pos]. Qed.

  (** the weights of pdyn.py:583 *)
  Theorem default_err : forall a e B, e <> [] -> (forall x, In x e -> Rabs (a * x) <= B) -> INR (length e) * (u + v) + u * B <= / 128 ->
    dist1 (coeffs_r rnd Exp Log sum a e) (gibbs_w a e) <= 60 * (INR (length e) * (u + v) + u * B).
  Proof.
    intros a e B He HB Hq. pose proof ranges as (U & V & E). pose proof (len_pos _ e He) as N1. set (q := INR (length e) * (u + v)) in *.
    assert (B0 : 0 <= B). { destruct e as [|x e']; [congruence|]. specialize (HB x ltac:(left; auto)). pose proof (Rabs_pos (a * x)). lra. }
    assert (UB : 0 <= u * B) by nra. assert (UQ : u + v <= q) by (unfold q; nra).
    set (wf := fun ei => rnd (- a * ei)). assert (WF : forall x, In x e -> Rabs (wf x - - a * x) <= u * B + eta).
    { intros x Hx. unfold wf. eapply Rle_trans; [apply (ar_rnd _ _ _ _ _ _ _ AR)|]. replace (- a * x) with (- (a * x)) by ring. rewrite Rabs_Ropp. specialize (HB x Hx). nra. }
    set (ws := map wf e). assert (Wne : ws <> []) by (unfold ws; destruct e; [congruence|discriminate]).
    assert (LW : length ws = length e) by (unfold ws; apply map_length).
    assert (MB : Rabs (row_max ws) <= B + (u * B + eta)).
    { destruct (row_max_spec ws Wne) as [MI _]. unfold ws in MI at 2. apply in_map_iff in MI. destruct MI as (x & EX & Hx). rewrite <- EX.
      replace (wf x) with ((wf x - - a * x) + - (a * x)) by ring. eapply Rle_trans; [apply Rabs_triang|]. rewrite Rabs_Ropp. specialize (WF x Hx). specialize (HB x Hx). lra. }
    assert (UM : u * Rabs (row_max ws) <= u * B + u). { apply (Rmult_le_compat_l u) in MB; auto. assert (u * (u * B + eta) <= u * 1) by (apply Rmult_le_compat_l; lra). lra. }
    pose proof (softmax_err u v eta rnd Exp Log sum AR ws Wne ltac:(rewrite LW; fold q; lra) ltac:(lra)) as SE. rewrite LW in SE. fold q in SE.
    eapply Rle_trans; [apply (dist1_triangle _ (map (soft ws) ws))|].
    { unfold coeffs_r, softmax_r. fold wf. fold ws. rewrite !map_length. auto. } { unfold gibbs_w. rewrite !map_length. auto. }
    unfold coeffs_r. fold wf. fold ws.
    assert (P2 : dist1 (map (soft ws) ws) (gibbs_w a e) <= 6 * (u * B + eta)).
    { unfold soft, gibbs_w. unfold ws at 1 2. rewrite map_map. unfold ws. rewrite map_map.
      pose proof (exp_sum_pos _ wf e He) as SP. pose proof (exp_sum_pos _ (fun x => - a * x) e He) as GP.
      eapply Rle_trans; [apply (normalised _ (fun x => exp (wf x)) (fun x => exp (- a * x)) e); auto; intros; left; apply exp_pos|].
      set (S := Rsum (map (fun x => exp (wf x)) e)) in *. set (G := Rsum (map (fun x => exp (- a * x)) e)) in *. set (D := u * B + eta) in *.
      assert (DD : 0 <= D <= / 16) by (unfold D; lra).
      assert (T : Rsum (map (fun x => Rabs (exp (wf x) - exp (- a * x))) e) <= 2 * D * G).
      { unfold G. rewrite <- Rsum_map_scal. apply Rsum_map_le. intros x Hx. specialize (WF x Hx). fold D in WF.
        replace (exp (wf x) - exp (- a * x)) with (exp (- a * x) * (exp (wf x - - a * x) - 1)).
        - rewrite Rabs_mult, (Rabs_right (exp (- a * x))) by (left; apply exp_pos). pose proof (exp_small (wf x - - a * x) ltac:(lra)) as ES. pose proof (exp_pos (- a * x)). rewrite Rmult_comm. apply Rmult_le_compat_r; lra.
        - rewrite Rmult_minus_distr_l, <- exp_plus, Rmult_1_r. do 2 f_equal. ring. }
      assert (SG : (1 - 2 * D) * G <= S).
      { assert (Rabs (S - G) <= 2 * D * G). { eapply Rle_trans; [|exact T]. unfold S, G. rewrite <- Rsum_map_minus. apply Rsum_abs. }
        unfold Rabs in H. destruct (Rcase_abs (S - G)); lra. }
      apply (Rmult_le_reg_r S); auto. unfold Rdiv. rewrite Rmult_assoc, Rinv_l, Rmult_1_r by lra. 
      apply Rle_trans with (4 * D * G); [lra|]. assert (6 * D * ((1 - 2 * D) * G) <= 6 * D * S) by (apply Rmult_le_compat_l; lra). assert (0 <= D * G * (6 * (1 - 2 * D) - 4)) by (apply Rmult_le_pos; [apply Rmult_le_pos|]; lra). lra. }
    lra.
  Qed.

  (** the weights of hypersurfacecbo.py:78 *)
  Theorem rescale_err : forall a e, e <> [] -> 0 <= a -> a * eta <= u -> INR (length e) * (u + v) <= / 128 ->
    dist1 (coeffs_rescale_r rnd Exp Log sum a e) (gibbs_w a e) <= 90 * (INR (length e) * (u + v)).
  Proof.
    intros a e He Ha Hae Hq. pose proof ranges as (U & V & E). pose proof (len_pos _ e He) as N1. set (q := INR (length e) * (u + v)) in *.
    assert (UQ : u + v <= q) by (unfold q; nra). destruct (row_min_spec e He) as [MI ML]. set (e0 := row_min e) in *.
    set (t := fun x => - a * (x - e0)). assert (T0 : forall x, In x e -> t x <= 0) by (intros x Hx; specialize (ML x Hx); unfold t; nra).
    set (wf := fun ei => rnd (- a * rnd (ei - e0))).
    assert (WF : forall x, In x e -> Rabs (wf x - t x) <= 3 * u * (Rabs (t x) + 1)).
    { intros x Hx. unfold wf. pose proof (ar_rnd _ _ _ _ _ _ _ AR (x - e0)) as R1. pose proof (ar_rnd _ _ _ _ _ _ _ AR (- a * rnd (x - e0))) as R2.
      assert (TA : Rabs (t x) = a * Rabs (x - e0)) by (unfold t; rewrite Rabs_mult, Rabs_Ropp, (Rabs_right a) by lra; auto).
      assert (R3 : Rabs (- a * rnd (x - e0) - t x) <= u * Rabs (t x) + u).
      { unfold t at 1. replace (- a * rnd (x - e0) - - a * (x - e0)) with (- a * (rnd (x - e0) - (x - e0))) by ring. rewrite Rabs_mult, Rabs_Ropp, (Rabs_right a) by lra.
        apply (Rmult_le_compat_l a) in R1; auto. rewrite TA. lra. }
      assert (R4 : Rabs (- a * rnd (x - e0)) <= Rabs (t x) + (u * Rabs (t x) + u)).
      { replace (- a * rnd (x - e0)) with ((- a * rnd (x - e0) - t x) + t x) by ring. eapply Rle_trans; [apply Rabs_triang|]. lra. }
      replace (rnd (- a * rnd (x - e0)) - t x) with ((rnd (- a * rnd (x - e0)) - - a * rnd (x - e0)) + (- a * rnd (x - e0) - t x)) by ring. eapply Rle_trans; [apply Rabs_triang|].
      apply (Rmult_le_compat_l u) in R4; auto. pose proof (Rabs_pos (t x)) as TP. set (y := Rabs (t x)) in *. assert (u * (u * y + u) <= u * (y + 1)) by (apply Rmult_le_compat_l; nra). nra. }
    set (ws := map wf e). assert (Wne : ws <> []) by (unfold ws; destruct e; [congruence|discriminate]).
    assert (LW : length ws = length e) by (unfold ws; apply map_length).
    assert (MB : Rabs (row_max ws) <= 3 * u).
    { destruct (row_max_spec ws Wne) as [MX MM].
      assert (M0 : - (3 * u) <= row_max ws).
      { apply Rle_trans with (wf e0); [|apply MM; unfold ws; apply in_map; auto]. specialize (WF e0 MI). unfold t in WF. replace (- a * (e0 - e0)) with 0 in WF by ring. rewrite Rabs_R0 in WF. unfold Rabs in WF. destruct (Rcase_abs (wf e0 - 0)); lra. }
      unfold ws in MX at 2. apply in_map_iff in MX. destruct MX as (x & EX & Hx). rewrite <- EX in *. specialize (WF x Hx). specialize (T0 x Hx). rewrite (Rabs_left1 (t x)) in WF by auto.
      assert (wf x <= 3 * u). { unfold Rabs in WF. destruct (Rcase_abs (wf x - t x)); nra. }
      unfold Rabs. destruct (Rcase_abs (wf x)); lra. }
    assert (UM : u * Rabs (row_max ws) <= u) by (apply (Rmult_le_compat_l u) in MB; auto; nra).
    pose proof (softmax_err u v eta rnd Exp Log sum AR ws Wne ltac:(rewrite LW; fold q; lra) ltac:(lra)) as SE. rewrite LW in SE. fold q in SE.
    eapply Rle_trans; [apply (dist1_triangle _ (map (soft ws) ws))|].
    { unfold coeffs_rescale_r, softmax_r. fold e0. fold wf. fold ws. rewrite !map_length. auto. } { unfold gibbs_w. rewrite !map_length. auto. }
    unfold coeffs_rescale_r. fold e0. fold wf. fold ws.
    assert (GS : gibbs_w a e = map (fun x => exp (t x) / Rsum (map (fun y => exp (t y)) e)) e).
    { unfold gibbs_w. assert (EQ : forall y, exp (t y) = exp (- a * y) * exp (a * e0)) by (intros y; unfold t; rewrite <- exp_plus; f_equal; ring).
      rewrite (Rsum_map_ext _ (fun y => exp (t y)) (fun y => exp (a * e0) * exp (- a * y))) by (intros; rewrite EQ; ring). rewrite Rsum_map_scal.
      apply map_ext. intros x. rewrite EQ. pose proof (exp_pos (a * e0)). pose proof (exp_sum_pos _ (fun x => - a * x) e He). field. split; lra. }
    assert (P2 : dist1 (map (soft ws) ws) (gibbs_w a e) <= 36 * q).
    { rewrite GS. unfold soft. unfold ws at 1 2. rewrite map_map. unfold ws. rewrite map_map.
      pose proof (exp_sum_pos _ wf e He) as SP. pose proof (exp_sum_pos _ t e He) as GP.
      eapply Rle_trans; [apply (normalised _ (fun x => exp (wf x)) (fun x => exp (t x)) e); auto; intros; left; apply exp_pos|].
      set (S := Rsum (map (fun x => exp (wf x)) e)) in *. set (G := Rsum (map (fun x => exp (t x)) e)) in *.
      assert (G1 : 1 <= G).
      { unfold G. assert (K : forall l, In e0 l -> 1 <= Rsum (map (fun x => exp (t x)) l)); [|auto].
        induction l as [|x l IH]; intros []; cbn [map]; rewrite Rsum_cons.
        - subst x. unfold t at 1. replace (- a * (e0 - e0)) with 0 by ring. rewrite exp_0. assert (0 <= Rsum (map (fun x => exp (t x)) l)) by (apply Rsum_map_nonneg; intros; left; apply exp_pos). lra.
        - specialize (IH H). pose proof (exp_pos (t x)). lra. }
      assert (T : Rsum (map (fun x => Rabs (exp (wf x) - exp (t x))) e) <= 9 * q).
      { apply Rle_trans with (Rsum (map (fun _ => 9 * u) e)).
        - apply Rsum_map_le. intros x Hx. specialize (WF x Hx). specialize (T0 x Hx). pose proof (exp_perturbed (t x) (wf x - t x) (3 * u) ltac:(lra) ltac:(lra) WF) as XP. replace (t x + (wf x - t x)) with (wf x) in XP by ring. lra.
        - rewrite Rsum_map_const. unfold q. nra. }
      assert (SG : / 2 <= S).
      { assert (Rabs (S - G) <= 9 * q). { eapply Rle_trans; [|exact T]. unfold S, G. rewrite <- Rsum_map_minus. apply Rsum_abs. }
        unfold Rabs in H. destruct (Rcase_abs (S - G)); lra. }
      apply (Rmult_le_reg_r S); auto. unfold Rdiv. rewrite Rmult_assoc, Rinv_l, Rmult_1_r by lra. assert (36 * q * / 2 <= 36 * q * S) by (apply Rmult_le_compat_l; lra). lra. }
    lra.
  Qed.

  (** the mean *)
  Theorem mean_err : forall cs gs x X E, cs <> [] -> length cs = length gs -> length x = length gs -> (forall y, In y x -> Rabs y <= X) -> (forall p, In p gs -> 0 <= p) -> Rsum gs = 1 ->
    dist1 cs gs <= E -> E <= 1 -> INR (length gs) * u <= / 128 ->
    Rabs (mean_r rnd sum cs x - Rsum (map2 Rmult x gs)) <= X * (E + 7 * (INR (length gs) * u)) + 4 * INR (length gs) * eta.
  Proof.
    intros cs gs x X E Hne L1 L2 HX HG HS HD HE HN. pose proof ranges as (U & V & ET).
    assert (X0 : 0 <= X). { destruct x as [|y x']; [destruct gs; [destruct cs; [congruence|discriminate]|discriminate]|]. specialize (HX y ltac:(left; auto)). pose proof (Rabs_pos y). lra. }
    assert (N1 : 1 <= INR (length gs)) by (rewrite <- L1; apply len_pos; auto).
    set (y := map2 (fun xi c => rnd (xi * c)) x cs).
    assert (LY : length y = length gs). { unfold y. clear - L1 L2. revert cs x L1 L2. induction gs; intros [|c cs] [|z x] L1 L2; try discriminate; auto. cbn. f_equal. apply IHgs; cbn in *; lia. }
    assert (K : forall cs gs x, length cs = length gs -> length x = length gs -> (forall y, In y x -> Rabs y <= X) -> (forall p, In p gs -> 0 <= p) ->
      Rabs (Rsum (map2 (fun xi c => rnd (xi * c)) x cs) - Rsum (map2 Rmult x gs)) <= X * dist1 cs gs + u * X * (Rsum gs + dist1 cs gs) + INR (length gs) * eta /\
      Rsum (map Rabs (map2 (fun xi c => rnd (xi * c)) x cs)) <= (1 + u) * X * (Rsum gs + dist1 cs gs) + INR (length gs) * eta).
    { clear - AR X0 U ET. induction cs as [|c cs IH]; intros [|p gs] [|z x] L1 L2 HX HG; try discriminate.
      - unfold dist1, Rsum. cbn. rewrite Rminus_0_r, Rabs_R0. split; lra.
      - destruct (IH gs x ltac:(cbn in *; lia) ltac:(cbn in *; lia) ltac:(intros; apply HX; right; auto) ltac:(intros; apply HG; right; auto)) as [I1 I2]. clear IH.
        unfold dist1 in *. cbn [map2 map length]. rewrite !Rsum_cons, S_INR. 
        pose proof (ar_rnd _ _ _ _ _ _ _ AR (z * c)) as R1. pose proof (HX z ltac:(left; auto)) as ZX. pose proof (HG p ltac:(left; auto)) as P0.
        assert (CP : Rabs c <= p + Rabs (c - p)). { replace c with (p + (c - p)) at 1 by ring. eapply Rle_trans; [apply Rabs_triang|]. rewrite (Rabs_right p) by lra. lra. }
        assert (ZC : Rabs (z * c) <= X * (p + Rabs (c - p))). { rewrite Rabs_mult. apply Rmult_le_compat; auto using Rabs_pos. }
        pose proof (Rmult_le_compat_l u _ _ U ZC) as UZC.
        assert (ZP : Rabs (z * c - z * p) <= X * Rabs (c - p)). { replace (z * c - z * p) with (z * (c - p)) by ring. rewrite Rabs_mult. apply Rmult_le_compat_r; auto using Rabs_pos. }
        split.
        + match goal with |- Rabs (?r + ?s - (?m + ?t)) <= _ => replace (r + s - (m + t)) with ((r - z * c) + ((z * c - z * p) + (s - t))) by ring end.
          eapply Rle_trans; [apply Rabs_triang|]. eapply Rle_trans; [apply Rplus_le_compat_l, Rabs_triang|]. lra.
        + assert (RA : Rabs (rnd (z * c)) <= Rabs (z * c) + (u * Rabs (z * c) + eta)). { replace (rnd (z * c)) with (z * c + (rnd (z * c) - z * c)) at 1 by ring. eapply Rle_trans; [apply Rabs_triang|]. lra. }
          lra. }
    destruct (K cs gs x L1 L2 HX HG) as [K1 K2]. fold y in K1, K2. rewrite HS in K1, K2. clear K.
    assert (YN : y <> []) by (intros C; rewrite C in LY; cbn in LY; rewrite <- LY in N1; cbn in N1; lra).
    pose proof (sum_err u v eta rnd Exp Log sum AR y YN ltac:(rewrite LY; lra)) as SE. rewrite LY in SE. unfold mean_r. fold y.
    set (N := INR (length gs)) in *. set (D := dist1 cs gs) in *.
    assert (D0 : 0 <= D). { unfold D, dist1. clear. revert gs. induction cs as [|c cs IH]; intros [|p gs]; cbn [map2]; try (unfold Rsum; cbn; lra). rewrite Rsum_cons. specialize (IH gs). pose proof (Rabs_pos (c - p)). lra. }
    assert (Q1 : X * D <= X * E) by (apply Rmult_le_compat_l; auto). 
    assert (UX : 0 <= u * X) by (apply Rmult_le_pos; auto).
    assert (Q2 : u * X * (1 + D) <= u * X * 2) by (apply Rmult_le_compat_l; lra).
    assert (NE0 : 0 <= N * eta) by (apply Rmult_le_pos; lra). assert (NU0 : 0 <= N * u) by (apply Rmult_le_pos; lra). assert (UN : u <= N * u) by nra.
    assert (Q3 : Rsum (map Rabs y) <= (1 + / 128) * (X * 2) + N * eta).
    { eapply Rle_trans; [exact K2|]. apply Rplus_le_compat_r. rewrite Rmult_assoc. apply Rmult_le_compat; [lra|apply Rmult_le_pos; lra|lra|apply Rmult_le_compat_l; lra]. }
    assert (Q4 : 2 * (N * u) * Rsum (map Rabs y) <= 2 * (N * u) * ((1 + / 128) * (X * 2) + N * eta)) by (apply Rmult_le_compat_l; lra).
    assert (Q5 : N * u * (N * eta) <= / 128 * (N * eta)) by (apply Rmult_le_compat_r; auto).
    assert (Q6 : u * X <= N * u * X) by (apply Rmult_le_compat_r; auto). assert (Q7 : 0 <= N * u * X) by (apply Rmult_le_pos; auto).
    replace (sum y - Rsum (map2 Rmult x gs)) with ((sum y - Rsum y) + (Rsum y - Rsum (map2 Rmult x gs))) by ring. eapply Rle_trans; [apply Rabs_triang|]. lra.
  Qed.
End Two.

Lemma gibbs_w_sum : forall a e, e <> [] -> Rsum (gibbs_w a e) = 1 /\ (forall p, In p (gibbs_w a e) -> 0 <= p).
Proof.
  intros a e He. pose proof (exp_sum_pos _ (fun x => - a * x) e He). unfold gibbs_w. split.
  - rewrite Rsum_map_div. apply Rinv_r. lra.
  - intros p Hp. apply in_map_iff in Hp. destruct Hp as (x & <- & _). apply Rmult_le_pos; [left; apply exp_pos|left; apply Rinv_0_lt_compat; auto].
Qed.
Lemma dist1_sum : forall c g, length c = length g -> Rabs (Rsum c - Rsum g) <= dist1 c g.
Proof.
  unfold dist1. induction c as [|x c IH]; intros [|y g] H; try discriminate; [unfold Rsum; cbn; rewrite Rminus_0_r, Rabs_R0; lra|]. cbn [map2]. rewrite !Rsum_cons.
  specialize (IH g ltac:(cbn in H; lia)). replace (x + Rsum c - (y + Rsum g)) with ((x - y) + (Rsum c - Rsum g)) by ring. eapply Rle_trans; [apply Rabs_triang|]. lra.
Qed.
Theorem default_consensus : forall u v eta rnd Exp Log sum, arithmetic u v eta rnd Exp Log sum -> forall a e B x X, e <> [] -> (forall y, In y e -> Rabs (a * y) <= B) ->
  INR (length e) * (u + v) + u * B <= / 128 -> length x = length e -> (forall y, In y x -> Rabs y <= X) ->
  let cs := coeffs_r rnd Exp Log sum a e in let q := INR (length e) * (u + v) + u * B in
  dist1 cs (gibbs_w a e) <= 60 * q /\ Rabs (Rsum cs - 1) <= 60 * q /\ Rabs (mean_r rnd sum cs x - Rsum (map2 Rmult x (gibbs_w a e))) <= X * (67 * q) + 4 * INR (length e) * eta.
Proof.
  intros u v eta rnd Exp Log sum AR a e B x X He HB Hq LX HX cs q. pose proof (ranges _ _ _ _ _ _ _ AR) as (U & V & E). pose proof (len_pos _ e He) as N1.
  pose proof (default_err _ _ _ _ _ _ _ AR a e B He HB Hq) as D. fold cs in D. fold q in D, Hq. destruct (gibbs_w_sum a e He) as [G1 G2].
  assert (LG : length (gibbs_w a e) = length e) by (unfold gibbs_w; apply map_length).
  assert (LC : length cs = length e) by (unfold cs, coeffs_r, softmax_r; rewrite !map_length; auto).
  assert (B0 : 0 <= B). { destruct e as [|z e']; [congruence|]. specialize (HB z ltac:(left; auto)). pose proof (Rabs_pos (a * z)). lra. }
  assert (UB : 0 <= u * B) by (apply Rmult_le_pos; auto). assert (NV : 0 <= INR (length e) * v) by (apply Rmult_le_pos; lra). assert (NU : INR (length e) * u <= q) by (unfold q; lra).
  split; auto. split.
  - eapply Rle_trans; [|exact D]. rewrite <- G1. apply dist1_sum. congruence.
  - assert (X0 : 0 <= X). { destruct x as [|z x']; [destruct e; [congruence|discriminate]|]. specialize (HX z ltac:(left; auto)). pose proof (Rabs_pos z). lra. }
    pose proof (mean_err _ _ _ _ _ _ _ AR cs (gibbs_w a e) x X (60 * q) ltac:(intros C; rewrite C in LC; destruct e; [congruence|discriminate]) ltac:(congruence) ltac:(congruence) HX G2 G1 D ltac:(lra) ltac:(rewrite LG; lra)) as M. rewrite LG in M.
    eapply Rle_trans; [exact M|]. apply Rplus_le_compat_r, Rmult_le_compat_l; lra.
Qed.
Theorem rescaled_consensus : forall u v eta rnd Exp Log sum, arithmetic u v eta rnd Exp Log sum -> forall a e x X, e <> [] -> 0 <= a -> a * eta <= u ->
  INR (length e) * (u + v) <= / 128 -> length x = length e -> (forall y, In y x -> Rabs y <= X) ->
  let cs := coeffs_rescale_r rnd Exp Log sum a e in let q := INR (length e) * (u + v) in
  dist1 cs (gibbs_w a e) <= 90 * q /\ Rabs (Rsum cs - 1) <= 90 * q /\ Rabs (mean_r rnd sum cs x - Rsum (map2 Rmult x (gibbs_w a e))) <= X * (97 * q) + 4 * INR (length e) * eta.
Proof.
  intros u v eta rnd Exp Log sum AR a e x X He Ha Hae Hq LX HX cs q. pose proof (ranges _ _ _ _ _ _ _ AR) as (U & V & E). pose proof (len_pos _ e He) as N1.
  pose proof (rescale_err _ _ _ _ _ _ _ AR a e He Ha Hae Hq) as D. fold cs in D. fold q in D, Hq. destruct (gibbs_w_sum a e He) as [G1 G2].
  assert (LG : length (gibbs_w a e) = length e) by (unfold gibbs_w; apply map_length).
  assert (LC : length cs = length e) by (unfold cs, coeffs_rescale_r, softmax_r; rewrite !map_length; auto).
  assert (NV : 0 <= INR (length e) * v) by (apply Rmult_le_pos; lra). assert (NU : INR (length e) * u <= q) by (unfold q; lra).
  split; auto. split.
  - eapply Rle_trans; [|exact D]. rewrite <- G1. apply dist1_sum. congruence.
  - assert (X0 : 0 <= X). { destruct x as [|z x']; [destruct e; [congruence|discriminate]|]. specialize (HX z ltac:(left; auto)). pose proof (Rabs_pos z). lra. }
    pose proof (mean_err _ _ _ _ _ _ _ AR cs (gibbs_w a e) x X (90 * q) ltac:(intros C; rewrite C in LC; destruct e; [congruence|discriminate]) ltac:(congruence) ltac:(congruence) HX G2 G1 D ltac:(lra) ltac:(rewrite LG; lra)) as M. rewrite LG in M.
    eapply Rle_trans; [exact M|]. apply Rplus_le_compat_r, Rmult_le_compat_l; lra.
Qed.
