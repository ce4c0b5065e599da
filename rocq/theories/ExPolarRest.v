(** * Concrete PolarCBO runs at rest and clusters *)
From Coq Require Import String List Arith Bool Reals Permutation Lia Lra.
From Verif Require Import Scalar Np NpFacts State Pdyn PdynRun PdynOk Exec RunFacts Script RVec RVecFacts Consensus ConsSpec ConsFacts PostProc Cbo CboSpec CboFacts
  Polar PolarSpec PolarFacts PolarRun PolarRunSpec PolarSym PolarRestSpec PolarRest PolarCluster ExCbo ExPolarRun.
Import ListNotations.
Open Scope R_scope.

Lemma far : forall k x y, 0 <= k -> k * k < sqdist x y -> k < dist x y.
Proof.
  intros k x y Hk H. unfold dist. assert (V := vnorm_sq (vsub x y)). fold (sqdist x y) in V. assert (N := vnorm_nonneg (vsub x y)).
  destruct (Rlt_le_dec k (vnorm (vsub x y))) as [|L]; auto. exfalso. nra.
Qed.

Lemma cX_apart : apart KConst (Fin (/ 2)) cX.
Proof.
  intros x y Hx Hy. cbn in Hx, Hy. destruct Hx as [<-|[<-|[<-|[]]]], Hy as [<-|[<-|[<-|[]]]]; auto; right; apply unseen; try lra; split; auto; apply far; try lra; cbn; lra.
Qed.

Lemma cusable : forall c a la dt sg s md, cinit c a la dt sg = Ok s -> (1 <= c_bsize c <= 3)%nat -> 0 <= dt -> 0 < a -> usable md s.
Proof.
  intros c a la dt sg s md HI Hb Hdt Ha. destruct (cpolar_state c a la dt sg s 3 true true HI Hb Hdt (or_introl eq_refl) Ha) as ((H1 & H2 & _ & H3) & _).
  split; [exact H1|]. split; [exact H2|]. intros _. exact (H3 eq_refl).
Qed.

Lemma ex_polar_absorb : exists s s1, let c := polar_cfg KConst (Fin (/ 2)) MAlpha sqf NAniso (fun v => v) 2 true false [] true in
  exec c s [] /\ usable MAlpha s /\ batches_fit 2 true s /\ ensemble_at s 0 2 cX /\ apart KConst (Fin (/ 2)) cX /\
  step c corc s = Ok s1 /\ later_if (usable MAlpha) c 2 s s1.
Proof.
  set (c := polar_cfg KConst (Fin (/ 2)) MAlpha sqf NAniso (fun v => v) 2 true false [] true).
  destruct (cinit_ok c 1 1 (/ 2) 3) as (s & I & E & HM & HN & HA & P & FA & HP & HX & _); [cbn; lia|lra|].
  assert (PL : plain c (s_N s)) by (rewrite HN; apply plain3; auto).
  destruct (exec_step_good c s [] corc E PL P) as (s1 & HS). exists s, s1. cbn zeta.
  split; auto. split; [eapply cusable; eauto; [cbn; lia|lra|lra]|]. split; [left; auto|]. split; auto. split; [apply cX_apart|]. split; auto.
  eapply li_step; eauto using corc_finite. apply li_start.
Qed.

Lemma ex_polar_rest : exists s s1, let c := polar_cfg KConst (Fin (/ 2)) MAlpha sqf NAniso (fun v => v) 3 true false [] true in
  exec c s [] /\ perms_valid corc s /\ finite_draws 2 corc /\ usable MAlpha s /\ parameters 1 (/ 2) 0 s /\ 3%nat = s_N s /\ In 0%nat (s_active s) /\
  step c corc s = Ok s1 /\ ensemble_at s 0 2 cX.
Proof.
  set (c := polar_cfg KConst (Fin (/ 2)) MAlpha sqf NAniso (fun v => v) 3 true false [] true).
  destruct (cinit_ok c 1 1 (/ 2) 0) as (s & I & E & HM & HN & HA & P & FA & HP & HX & _); [cbn; lia|lra|].
  assert (PL : plain c (s_N s)) by (rewrite HN; apply plain3; auto).
  destruct (exec_step_good c s [] corc E PL P) as (s1 & HS). exists s, s1. cbn zeta.
  split; auto. split; auto. split; [apply corc_finite|]. split; [eapply cusable; eauto; [cbn; lia|lra|lra]|]. split; auto. split; auto.
  split; [rewrite HA; cbn; auto|]. auto.
Qed.

(** two regions that do not see each other: a strip and a half-plane; the third particle of the run is alone *)
Definition eregion (j : nat) (p : list R) : Prop := match j with O => -1 <= coord 0 p <= 0 | 1%nat => 2 <= coord 0 p | _ => False end.

Lemma coord_hull : forall ws X v b, convex ws -> length ws = length X -> (forall x, In x X -> length x = 2%nat) ->
  (forall x, In x X -> v * coord 0 x <= b) -> v * coord 0 (combination ws 2 X) <= b.
Proof.
  intros ws X v b HW HL HX H. assert (G : forall p, length p = 2%nat -> dot [v; 0] p = v * coord 0 p).
  { intros p Hp. destruct p as [|x [|y [|]]]; try discriminate. unfold dot, coord. cbn. ring. }
  rewrite <- G by apply combination_length. apply combination_hull with (N := length X); auto; [split; auto|].
  intros x Hx. rewrite G by auto. auto.
Qed.

Lemma eclusters : clusters KConst (Fin (3 / 2)) 2 eregion.
Proof.
  split.
  - intros j ws X HW HL HX. assert (HX' : forall x, In x X -> length x = 2%nat) by (intros; apply HX; auto).
    destruct j as [|[|j]]; cbn [eregion].
    + assert (1 * coord 0 (combination ws 2 X) <= 0). { apply coord_hull; auto. intros x Hx. destruct (HX x Hx) as [_ HH]. cbn in HH. lra. }
      assert (-1 * coord 0 (combination ws 2 X) <= 1). { apply coord_hull; auto. intros x Hx. destruct (HX x Hx) as [_ HH]. cbn in HH. lra. }
      lra.
    + assert (-1 * coord 0 (combination ws 2 X) <= -2). { apply coord_hull; auto. intros x Hx. destruct (HX x Hx) as [_ HH]. cbn in HH. lra. }
      lra.
    + destruct X as [|x X]; [|destruct (HX x (or_introl eq_refl)) as [_ []]]. destruct ws; [|discriminate]. destruct HW as [_ HW]. cbn in HW. lra.
  - intros i j x y NE Lx Ly Cx Cy. apply unseen; [lra|]. split; auto. apply far; [lra|].
    destruct x as [|x0 [|x1 [|]]]; try discriminate. destruct y as [|y0 [|y1 [|]]]; try discriminate.
    assert (Q : 2 <= x0 - y0 \/ 2 <= y0 - x0).
    { destruct i as [|[|i]], j as [|[|j]]; cbn in Cx, Cy; unfold coord in Cx, Cy; cbn in Cx, Cy; try lra; try lia. }
    unfold sqdist, sqnorm, dot, vsub. cbn. assert (0 <= (x1 - y1) * (x1 - y1)) by (apply Rle_0_sqr). destruct Q; nra.
Qed.

(** the run of three particles, and a run of its first cluster alone *)
Definition pairX : list (list R) := [[0; 1]; [-1; 1]].
Definition porc : orc vec := {| o_z := fun k n => floats [INR n - 7; 2]; o_perm := fun _ => [1; 0]%nat |}.
Lemma porc_finite : finite_draws 2 porc.
Proof. intros k n. eexists. split; reflexivity. Qed.

Lemma pair_ok : forall c, c_bsize c = 2%nat -> exists s, exec c s [] /\ s_N s = 2%nat /\ s_active s = [0%nat] /\ perms_valid porc s /\ usable MAlpha s /\
  parameters 1 (/ 2) 0 s /\ ensemble_at s 0 2 pairX /\ s_alpha s = [[Fin 1]].
Proof.
  intros c Hb.
  assert (HI : exists s, init c [map floats pairX] false (Fin 1) (Fin 0) (Fin 1) (Fin (/ 2)) (fun _ => [1; 0]%nat) None [] None = Ok s /\
    s_N s = 2%nat /\ s_M s = 1%nat /\ s_active s = [0%nat] /\ s_alpha s = [[Fin 1]] /\ s_lamda s = Fin 1 /\ s_dt s = Fin (/ 2) /\ s_sigma s = Fin 0 /\ s_x s = [map floats pairX]).
  { eexists. split; [reflexivity|]. repeat split; reflexivity. }
  destruct HI as (s & I & HN & HM & HA & HAl & H1 & H2 & H3 & H4). exists s.
  assert (PR : parameters 1 (/ 2) 0 s) by (repeat split; auto; lra).
  split; [|split; [auto|split; [auto|split; [|split; [|split; [auto|split; [|auto]]]]]]].
  - apply ex_init. exists [map floats pairX], false, (Fin 1), (Fin 0), (Fin 1), (Fin (/ 2)), (fun _ => [1; 0]%nat), None, [], None.
    split; [split; [reflexivity|repeat constructor]|]. split; [cbn; lia|]. split; [rewrite Hb; cbn; lia|].
    split; [|split; [discriminate|exact I]]. intros m _. apply (perm_b_ok 2). reflexivity.
  - intros m _. rewrite HN. apply (perm_b_ok 2). reflexivity.
  - split; [|split].
    + intros m Hm. rewrite HAl, HM in *. destruct m; [|lia]. exists 1. reflexivity.
    + exists 1, (/ 2), 0. auto.
    + intros _ m a H. rewrite HAl in H. destruct m as [|[|m]]; cbn in H; try discriminate. injection H as <-. lra.
  - split; [rewrite H4; reflexivity|]. rewrite HN. split; [reflexivity|]. intros p [<-|[<-|[]]]; reflexivity.
Qed.

Lemma ex_polar_cluster : exists s1 s2 u1 u2,
  let c1 := polar_cfg KConst (Fin (3 / 2)) MAlpha sqf NAniso (fun v => v) 3 true false [] true in
  let c2 := polar_cfg KConst (Fin (3 / 2)) MAlpha sqf NIso (fun v => v) 2 false true [] false in
  let P := fun s => usable MAlpha s /\ noise_free s in
  clusters KConst (Fin (3 / 2)) 2 eregion /\ exec c1 s1 [] /\ exec c2 s2 [] /\ P s1 /\ P s2 /\ same_parameters 0 0 s1 s2 /\ 3%nat = s_N s1 /\ 2%nat = s_N s2 /\
  ensemble_at s1 0 2 cX /\ ensemble_at s2 0 2 pairX /\ clustered eregion [0; 1; 0]%nat cX /\ clustered eregion [0; 0]%nat pairX /\
  members 0 [0; 1; 0]%nat cX = members 0 [0; 0]%nat pairX /\ later_if P c1 2 s1 u1 /\ lockstep P 2 c1 c2 0 0 s1 s2 u1 u2.
Proof.
  set (c1 := polar_cfg KConst (Fin (3 / 2)) MAlpha sqf NAniso (fun v => v) 3 true false [] true).
  set (c2 := polar_cfg KConst (Fin (3 / 2)) MAlpha sqf NIso (fun v => v) 2 false true [] false).
  destruct (cinit_ok c1 1 1 (/ 2) 0) as (s1 & I & E & HM & HN & HA & P1 & FA & HP & HX & _); [cbn; lia|lra|].
  destruct (pair_ok c2 eq_refl) as (s2 & E2 & HN2 & HA2 & P2 & U2 & HP2 & HX2 & Al2).
  assert (PL : plain c1 (s_N s1)) by (rewrite HN; apply plain3; auto).
  assert (PL2 : plain c2 (s_N s2)). { rewrite HN2. split; [right; split; [apply polar_per_particle|right; reflexivity]|reflexivity]. }
  destruct (exec_step_good c1 s1 [] corc E PL P1) as (u1 & HS1). destruct (exec_step_good c2 s2 [] porc E2 PL2 P2) as (u2 & HS2).
  exists s1, s2, u1, u2. cbn zeta. split; [apply eclusters|]. split; auto. split; auto.
  split. { split; [eapply cusable; eauto; [cbn; lia|lra|lra]|]. exists 1, (/ 2). split; auto. lra. }
  split. { split; auto. exists 1, (/ 2). split; auto. lra. }
  split. { destruct HP as (Q1 & Q2 & _), HP2 as (Q3 & Q4 & _). split; [congruence|]. split; [congruence|]. rewrite Al2, (proj1 (cinit_alpha _ _ _ _ _ _ I)). reflexivity. }
  split; auto. split; auto. split; auto. split; auto.
  split. { split; [reflexivity|]. intros [|[|[|n]]] j x Hj Hx; cbn in Hj, Hx; try (destruct n; discriminate); injection Hj as <-; injection Hx as <-; unfold eregion, coord; cbn; lra. }
  split. { split; [reflexivity|]. intros [|[|n]] j x Hj Hx; cbn in Hj, Hx; try (destruct n; discriminate); injection Hj as <-; injection Hx as <-; unfold eregion, coord; cbn; lra. }
  split; [reflexivity|]. split.
  - apply li_step with (s1 := s1) (o := corc); auto using corc_finite. apply li_start.
  - eapply ls_step with (o1 := corc) (o2 := porc); [apply ls_start|rewrite HA; cbn; auto|rewrite HA2; cbn; auto|auto|auto|apply corc_finite|apply porc_finite|auto|auto].
Qed.
