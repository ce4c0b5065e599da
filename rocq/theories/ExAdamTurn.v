(** * AdamCBO and rotations: a counterexample *)
From Coq Require Import String List Arith Bool Permutation Lia Reals Lra.
From Verif Require Import Scalar ScalarFacts RFacts Np NpFacts State Pdyn PdynFacts PdynStep PdynRun PdynOk Exec Script
  Memory MemSpec Variant VarSpec VarFacts VarMove RVec RVecFacts Consensus ConsSpec ConsFacts Cbo CboSpec CboFacts TwinSpec SymFacts SymLaws AdamSpec AdamFacts AdamR AdamStepSpec AdamStep ExAdam ExAniso.
Import ListNotations.
Open Scope R_scope.

Definition tc (k : noise_model) : cfg R vec := cbo_cfg (fun _ => Fin 0) k (fun v => v) NoCorr 2 true false [] false.
Definition tY : list (list R) := [[0; 0]; [10; 0]].
Definition torc : orc vec := {| o_z := fun _ _ => floats [1; 1]; o_perm := fun _ => [0; 1]%nat |}.
Definition tstart (k : noise_model) (x0 : arr vec) (s : st R vec) : Prop := init (tc k) x0 false (Fin 0) (Fin 0) (Fin 1) (Fin 1) (fun _ => [0; 1]%nat) None [] None = Ok s.

Lemma tfirst : forall k b0 b1 eps p q o, 0 <= b0 < 1 -> 0 <= b1 < 1 -> 0 < eps -> length p = 2%nat -> length q = 2%nat -> finite_draws 2 o -> (forall m, o_perm o m = [0; 1]%nat) ->
  let inner := adam_inner np_sq np_quot (mkapar (Fin b0) (Fin b1) (Fin eps)) in let attr := adam_attr (floats (repeat 0 2)) in
  exists s r x1, tstart k [map floats [p; q]] s /\ vstep inner (tc k) o (s, attr s) = Ok r /\ cell (s_x (fst r)) 0 0 = Some (floats x1) /\ length x1 = 2%nat /\
    forall a, (a < 2)%nat -> let u := coord a p - (coord a p + coord a q) / 2 in coord a x1 = coord a p - u / (Rabs u + eps).
Proof.
  intros k b0 b1 eps p q o H0 H1 He Lp Lq HD HO inner attr.
  assert (Q : exists s, tstart k [map floats [p; q]] s /\ s_M s = 1%nat /\ s_N s = 2%nat /\ s_active s = [0]%nat /\ s_x s = [map floats [p; q]] /\ s_alpha s = [[Fin 0]] /\ parameters 1 1 0 s /\ s_it s = 0%nat).
  { eexists. split; [reflexivity|]. repeat split; try reflexivity. lra. }
  destruct Q as (s & I & HM & HN & Ha & Hx & Hal & Hp & Hit).
  assert (P : perms_valid o s). { intros m _. rewrite HN, HO. apply (perm_b_ok 2). reflexivity. }
  assert (HE : adam_exec inner attr (tc k) (s, attr s) (fun _ _ => [])).
  { apply (ax_init inner attr (tc k)). exists [map floats [p; q]], false, (Fin 0), (Fin 0), (Fin 1), (Fin 1), (fun _ => [0; 1]%nat), None, [], None.
    split; [split; [reflexivity|repeat constructor]|]. split; [cbn; lia|]. split; [cbn; lia|].
    split; [|split; [discriminate|exact I]]. intros m _. apply (perm_b_ok 2). reflexivity. }
  destruct (attr s) as [m v] eqn:Emv.
  destruct (adam_inv _ _ _ _ _ _ _ _ _ _ _ _ _ _ _ _ _ HE) as (W & Rm & Rv).
  assert (C1 : one_consensus_point (tc k)) by (intros e x a; reflexivity).
  assert (HA : s_active s <> []) by (rewrite Ha; discriminate).
  destruct (adam_step_ok np_sq np_quot (mkapar (Fin b0) (Fin b1) (Fin eps)) (tc k) o s m v W P C1 HA Rm Rv) as ([s' [m' v']] & HS).
  assert (Es : run_sel (tc k) o s 0 = [0; 1]%nat) by (unfold run_sel; rewrite HN; reflexivity).
  assert (Ep : run_selp (tc k) o s 0 = [0; 1]%nat). { unfold run_selp. cbn [tc cbo_cfg c_partial]. exact Es. }
  assert (AD : admissible 0 [Fin 0; Fin 0]). { split. { intros e Hh. left. destruct Hh as [<-|[<-|[]]]; eauto. } exists 0. cbn. auto. }
  assert (EN : ensemble 2 2 [p; q]). { split; auto. intros z [<-|[<-|[]]]; auto. }
  set (cs := gibbs_point 0 [Fin 0; Fin 0] 2 [p; q]).
  assert (HC : cc_default (map (fun _ => Fin 0) (map floats [p; q])) (map floats [p; q]) (Fin 0) = [floats cs]). { cbn [map]. apply (consensus_gibbs 0 _ 2 _ AD EN). }
  assert (Hcs : forall a, (a < 2)%nat -> coord a cs = (coord a p + coord a q) / 2).
  { intros a Hh. unfold cs, gibbs_point. unfold coord at 1. rewrite nth_map_seq by auto. unfold gibbs_mean. cbn. rewrite ?Rmult_0_r, ?exp_0. unfold coord. field. }
  destruct (adam_first (fun _ => Fin 0) k (fun v => v) NoCorr 2 true false [] false b0 b1 eps 2 H0 H1 He 1 1 0 o s m v s' m' v' (fun _ _ => []) 0%nat 0%nat p (map floats [p; q]) (map floats [p; q]) (Fin 0) cs)
    as (j & i & z & x1 & _ & _ & _ & L1 & E1 & V); auto; try lia; try (rewrite ?Ha, ?Ep, ?Hx, ?Hal; cbn; auto; fail).
  - change (In 0%nat (run_selp (tc k) o s 0)). rewrite Ep. cbn; auto.
  - change (takeM (map floats [p; q]) (run_sel (tc k) o s 0) = Ok (map floats [p; q])). rewrite Es. reflexivity.
  - exists s, (s', (m', v')), x1. split; [exact I|]. split; [rewrite Emv; exact HS|]. split; [exact E1|]. split; [exact L1|]. intros a Hh u. rewrite (V a Hh), (Hcs a Hh). fold u. unfold Rdiv. ring.
Qed.

Theorem adam_turn : forall k b0 b1 eps, 0 <= b0 < 1 -> 0 <= b1 < 1 -> 0 < eps ->
  let inner := adam_inner np_sq np_quot (mkapar (Fin b0) (Fin b1) (Fin eps)) in let attr := adam_attr (floats (repeat 0 2)) in let c := cbo_cfg (fun _ => Fin 0) k (fun v => v) NoCorr 2 true false [] false in
  exists A x0 o s s' r r', isometry 2 A /\ finite_draws 2 o /\
    init c x0 false (Fin 0) (Fin 0) (Fin 1) (Fin 1) (fun _ => [0; 1]%nat) None [] None = Ok s /\
    init c (map (map (rotate A)) x0) false (Fin 0) (Fin 0) (Fin 1) (Fin 1) (fun _ => [0; 1]%nat) None [] None = Ok s' /\
    perms_valid o s /\ vstep inner c o (s, attr s) = Ok r /\ vstep inner c {| o_z := fun i n => rotate A (o_z o i n); o_perm := o_perm o |} (s', attr s') = Ok r' /\
    s_x (fst r') <> map (map (rotate A)) (s_x (fst r)).
Proof.
  intros k b0 b1 eps H0 H1 He inner attr c. set (o' := {| o_z := fun i n => rotate slant (o_z torc i n); o_perm := o_perm torc |}).
  destruct (tfirst k b0 b1 eps [0; 0] [10; 0] torc H0 H1 He eq_refl eq_refl ltac:(intros ? ?; exists [1; 1]; auto) ltac:(reflexivity)) as (s & r & x1 & I & S & C & L & V).
  destruct (tfirst k b0 b1 eps (lin slant [0; 0]) (lin slant [10; 0]) o' H0 H1 He eq_refl eq_refl ltac:(intros ? ?; exists (lin slant [1; 1]); split; [apply rotate_floats|reflexivity]) ltac:(reflexivity)) as (s' & r' & x1' & I' & S' & C' & L' & V').
  exists slant, [map floats tY], torc, s, s', r, r'. split; [exact slant_isometry|]. split; [intros ? ?; exists [1; 1]; auto|]. split; [exact I|]. split.
  { unfold tstart in I'. rewrite <- I'. f_equal. }
  split; [|split; [exact S|split; [exact S'|]]].
  { intros m _. assert (s_N s = 2%nat) as -> by (injection I as <-; reflexivity). apply (perm_b_ok 2). reflexivity. }
  intros Bad. assert (E : x1' = lin slant x1).
  { apply floats_inj. rewrite <- rotate_floats. unfold cell in C, C'. rewrite Bad, nth_error_map in C'. destruct (nth_error (s_x (fst r)) 0) as [row|]; [|discriminate C]. cbn [option_map] in C'.
    rewrite nth_error_map, C in C'. cbn [option_map] in C'. congruence. }
  pose proof (V 0%nat ltac:(lia)) as V0. pose proof (V 1%nat ltac:(lia)) as V1. pose proof (V' 0%nat ltac:(lia)) as W0. cbv zeta in V0, V1, W0.
  rewrite E in W0. destruct x1 as [|a [|b [|? ?]]]; try discriminate L. unfold coord, lin, slant, dot in V0, V1, W0. cbn in V0, V1, W0.
  replace (0 - (0 + 10) / 2) with (-5) in V0 by field. replace (0 - (0 + 0) / 2) with 0 in V1 by field. rewrite Rabs_R0 in V1. replace (0 / (0 + eps)) with 0 in V1 by (field; lra).
  match type of W0 with context [Rabs ?u] => replace u with (-3) in W0 by field end.
  rewrite Rabs_left in V0 by lra. rewrite Rabs_left in W0 by lra. rewrite V0, V1 in W0.
  assert (X : 3 / (5 + eps) = 3 / (3 + eps)). { transitivity (3 / 5 * (0 - -5 / (- -5 + eps)) + (-4 / 5 * (0 - 0) + 0)); [field; lra|]. rewrite W0. field; lra. }
  assert (Y : 3 / (5 + eps) * ((5 + eps) * (3 + eps)) = 3 / (3 + eps) * ((5 + eps) * (3 + eps))) by (rewrite X; auto).
  replace (3 / (5 + eps) * ((5 + eps) * (3 + eps))) with (3 * (3 + eps)) in Y by (field; lra). replace (3 / (3 + eps) * ((5 + eps) * (3 + eps))) with (3 * (5 + eps)) in Y by (field; lra). lra.
Qed.
