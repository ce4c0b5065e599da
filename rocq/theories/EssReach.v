(** * effective_sample_size: the target is met up to the tolerance or the resolution of the bisection *)
From Coq Require Import List Arith Bool Lia Reals Lra.
From Verif Require Import Scalar ScalarFacts RFacts Np NpFacts State RVec Consensus ConsSpec Sched SchedFacts EssFacts ExSched.
Import ListNotations.
Open Scope R_scope.

(** two functions that agree on the bracket give the same result *)
Lemma bisect_ext1 : forall f g thresh left idx l h ev, l <= h -> length idx = 1%nat -> (forall x, length (g [x]) = 1%nat) ->
  (forall x, l <= x <= h -> f [x] = g [x]) ->
  bisect f thresh left idx [l] [h] ev = bisect g thresh left idx [l] [h] ev.
Proof.
  intros f g thresh left. induction left as [|n IH]; intros idx l h ev Hlh Hi Hg H.
  - cbn [bisect midpoints map2]. rewrite H by lra. auto.
  - cbn [bisect midpoints map2]. rewrite H by lra. set (x := (l + h) / 2) in *. assert (Hx : l <= x <= h) by (unfold x; lra).
    destruct (existsb _ _); auto. specialize (Hg x) as Hgx.
    destruct idx as [|i [|]]; try discriminate. destruct (g [x]) as [|v [|]] eqn:Ev; try discriminate.
    unfold new_low, new_high, open_runs. cbn [combine map2 map fst snd].
    set (l' := if i && fltb (Fin 0) v then x else l). set (h' := if i && fltb v (Fin 0) then x else h).
    assert (Hl' : l <= l' <= x) by (unfold l'; clear - Hx; destruct (i && fltb (Fin 0) v); lra).
    assert (Hh' : x <= h' <= h) by (unfold h'; clear - Hx; destruct (i && fltb v (Fin 0)); lra).
    apply IH; auto. lra. intros y Hy. apply H. lra.
Qed.

Theorem ess_reaches : forall V eta maximum max_it (s s' : st R V) E root, s_M s = 1%nat -> s_energy s = [E] -> admissible (/ 100000) E ->
  / 100000 <= root <= maximum -> Jeff root E = eta * INR (length E) -> ess_update eta maximum max_it s = Ok s' ->
  exists a, s_alpha s' = [[Fin a]] /\ / 100000 <= a <= maximum /\
    (Rabs (Jeff a E - eta * INR (length E)) <= / 100 \/
     exists rt, / 100000 <= rt <= maximum /\ Jeff rt E = eta * INR (length E) /\ Rabs (a - rt) <= (maximum - / 100000) / 2 ^ (max_it + 1)).
Proof.
  intros V eta maximum max_it s s' E root HM HE HA Hroot Hr HU.
  assert (HL : length (s_energy s) = s_M s) by (rewrite HM, HE; auto).
  pose proof (ess_update_length _ _ _ _ _ _ HL HU) as La. rewrite HM in La.
  destruct (s_alpha s') as [|row [|]] eqn:Ea; try discriminate.
  assert (Hrow : nth_error (s_alpha s') 0 = Some row) by (rewrite Ea; auto).
  assert (Hmin : ess_minimum <= maximum) by (unfold ess_minimum; lra). assert (HM0 : (0 < s_M s)%nat) by (rewrite HM; auto).
  destruct (ess_update_alpha V eta maximum max_it s s' 0 row HL Hmin HU HM0 Hrow) as (a & -> & Eq & Ha1 & Ha2).
  exists a. split; auto.
  assert (Pmin : 0 < / 100000) by lra. unfold ess_minimum in Ha1.
  assert (Hw : 0 <= (maximum - / 100000) / 2 ^ (max_it + 1)). { apply Rmult_le_pos. lra. apply Rlt_le, Rinv_0_lt_compat, pow_lt. lra. }
  split. lra.
  (* the function, continued constantly below the bracket *)
  set (g := fun x => Jeff (Rmax x (/ 100000)) E - eta * INR (length E)).
  assert (Hni : nonincreasing g).
  { intros x y Hxy. unfold g. apply Rplus_le_compat_r. apply Jeff_decreasing.
    - eapply admissible_more; eauto. apply Rmax_r.
    - split. { eapply Rle_trans; [|apply Rmax_r]. lra. } apply Rle_max_compat_r; auto. }
  assert (Hg : g root = 0). { unfold g. rewrite Rmax_left by lra. lra. }
  assert (EB : ess_solve eta maximum max_it (s_M s) (s_energy s) = bisection_solve (per_run [g]) [/ 100000] [maximum] max_it (/ 100)).
  { unfold ess_solve, bisection_solve. rewrite HM, HE. cbn [repeat map]. apply bisect_ext1; auto.
    intros x Hx. unfold ess_gaps, per_run. cbn [map2]. f_equal. unfold ess_minimum in Hx. rewrite ess_gap_char. 2:{ eapply admissible_more; eauto. lra. }
    unfold g. rewrite Rmax_left by lra. auto. }
  rewrite EB in Eq.
  assert (Ht : 0 <= / 100) by lra.
  destruct (bisection_accuracy g (/ 100000) maximum max_it (/ 100) root Hni Hg Hroot Ht) as (x & rt & Ex & Hrt & Hrt2 & Hd).
  destruct (bisection_stop (per_run [g]) 1 [/ 100000] [maximum] max_it (/ 100) (per_run_length [g]) eq_refl eq_refl) as (_ & _ & _ & _ & Hev & Hst).
  cbv zeta in Hst. rewrite Ex in Eq. cbn in Eq. subst x.
  destruct (Nat.le_gt_cases (b_evals (bisection_solve (per_run [g]) [/ 100000] [maximum] max_it (/ 100))) max_it) as [Hle|Hgt].
  - left. specialize (Hst Hle 0%nat (g a)). rewrite Ex in Hst. specialize (Hst eq_refl). unfold g in Hst. rewrite Rmax_left in Hst by lra. auto.
  - right. exists rt. split; auto. split. { unfold g in Hrt. rewrite Rmax_left in Hrt by lra. lra. }
    replace (max_it + 1)%nat with (b_evals (bisection_solve (per_run [g]) [/ 100000] [maximum] max_it (/ 100))) by lia. auto.
Qed.

Lemma ess_update_range : forall V eta maximum max_it (s s' : st R V) i row, length (s_energy s) = s_M s ->
  / 100000 <= maximum -> ess_update eta maximum max_it s = Ok s' -> (i < s_M s)%nat -> nth_error (s_alpha s') i = Some row ->
  exists a, row = [Fin a] /\ / 100000 + (maximum - / 100000) / 2 ^ (max_it + 1) <= a <= maximum.
Proof.
  intros V eta maximum max_it s s' i row H1 H2 H3 H4 H5.
  destruct (ess_update_alpha V eta maximum max_it s s' i row H1 H2 H3 H4 H5) as (a & E & _ & H). exists a. auto.
Qed.

Lemma ess_reach_case : let s := set_energy [[Fin 0; Fin (ln 2)]] (sst1 3) in
  (exists s', ess_update (9 / 10) 100000 15 s = Ok s') /\ s_M s = 1%nat /\ s_energy s = [[Fin 0; Fin (ln 2)]] /\
  admissible (/ 100000) [Fin 0; Fin (ln 2)] /\ / 100000 <= 1 <= 100000 /\
  Jeff 1 [Fin 0; Fin (ln 2)] = 9 / 10 * INR (length [Fin 0; Fin (ln 2)]).
Proof.
  cbv zeta. split; [eexists; reflexivity|]. split; [reflexivity|]. split; [reflexivity|]. split; [|split; [lra|]].
  - split. intros e [<-|[<-|[]]]; left; eauto. exists 0. left; auto.
  - unfold Jeff. cbn [map Rsum fold_right gibbs length INR].
    assert (E1 : exp (- (1) * 0) = 1) by (rewrite Rmult_0_r; apply exp_0).
    assert (E2 : exp (- (1) * ln 2) = / 2). { replace (- (1) * ln 2) with (- ln 2) by ring. rewrite exp_Ropp, exp_ln; lra. }
    unfold Rsum. cbn [fold_right]. rewrite E1, E2. field.
Qed.
