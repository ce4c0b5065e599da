(** * A concrete pair of CBO runs in two systems of units *)
From Coq Require Import String List Arith Bool Reals Permutation Lia Lra.
From Verif Require Import Scalar Np NpFacts State Pdyn PdynRun PdynOk Exec RunFacts Script RVec RVecFacts Consensus ConsSpec ConsFacts PostProc Cbo CboSpec CboFacts TwinSpec SymFacts ExCbo UnitsSpec UnitsFacts UnitsSym.
Import ListNotations.
Open Scope R_scope.

Lemma cboth : forall (uu : units R vec) c c' a la dt sg s s', c_bsize c' = c_bsize c -> c_corr c = NoCorr -> c_corr c' = NoCorr ->
  one_consensus_point c -> one_consensus_point c' -> (1 <= c_bsize c <= 3)%nat -> 0 <= dt ->
  cinit c a la dt sg = Ok s ->
  init c' (map (map (u_x uu)) cx0) false (u_alpha uu (Fin a)) (u_sigma uu (Fin sg)) (u_lamda uu (Fin la)) (u_t uu (Fin dt)) (fun _ => [2; 0; 1]%nat) None [] None = Ok s' ->
  exists s1 s1', step c corc s = Ok s1 /\ both uu c c' (finite_state 2) (finite_draws 2) s1 s1'.
Proof.
  intros uu c c' a la dt sg s s' B N1 N2 O1 O2 Hb Hdt I1 I2.
  destruct (cinit_ok c a la dt sg Hb Hdt) as (s0 & I0 & E & _ & HN & _ & P & _ & _ & _ & _ & FS & _). rewrite I1 in I0. injection I0 as <-.
  assert (PA : both uu c c' (finite_state 2) (finite_draws 2) s s').
  { eapply (bo_init uu c c' _ _ cx0 false); eauto.
    - split; [reflexivity|repeat constructor].
    - cbn; lia.
    - intros m _. apply (perm_b_ok 3). reflexivity.
    - discriminate. }
  destruct (exec_step_good c s [] corc E (conj (or_introl O1) N1) P) as (s1 & HS).
  set (o' := {| o_z := fun k n => u_z uu (o_z corc k n); o_perm := o_perm corc |}).
  assert (E' : exec c' s' []).
  { apply ex_init. exists (map (map (u_x uu)) cx0), false, (u_alpha uu (Fin a)), (u_sigma uu (Fin sg)), (u_lamda uu (Fin la)), (u_t uu (Fin dt)), (fun _ => [2; 0; 1]%nat), None, [], None.
    split; [split; [reflexivity|repeat constructor]|]. split; [cbn; lia|]. split; [rewrite B; exact Hb|].
    split; [|split; [discriminate|exact I2]]. intros m _. apply (perm_b_ok 3). reflexivity. }
  assert (P' : perms_valid o' s').
  { intros m Hm. cbn [o' o_perm]. assert (s_N s' = 3%nat) as ->; [|apply (perm_b_ok 3); reflexivity].
    injection I2 as <-. reflexivity. }
  destruct (exec_step_good c' s' [] o' E' (conj (or_introl O2) N2) P') as (s1' & HS').
  exists s1, s1'. split; auto. eapply bo_step; eauto. exact corc_finite.
Qed.

(** |x|^2 in doubled lengths and energies times 4 is |x|^2 *)
Lemma sqf_units : forall d p, length p = d -> sqf (floats (vscal 2 p)) = times_by 4 (sqf (floats p)).
Proof.
  intros d p _. rewrite !sqf_floats. unfold times_by. cbn [fmul]. f_equal. unfold sqnorm, dot, vscal. induction p as [|x p IH]; cbn [map map2]; [cbn; ring|].
  rewrite !Rsum_cons, IH. cbn. ring.
Qed.

(** an unconverted threshold does not commute with the units *)
Lemma pp_fixed : forall len t, 1 < len -> 0 < t -> pp_point t false (floats (vscal len [t])) <> floats (vscal len [t]).
Proof.
  intros len t Hl Ht H. unfold pp_point, floats, vscal in H. cbn [map] in H. unfold pp_default, nan_to_num in H. rewrite PostFacts.np_clip_fin in H by lra. injection H as H.
  rewrite Rmin_left, Rmax_right in H by nra. nra.
Qed.
Lemma pp_kept : forall t, 0 < t -> pp_point t false (floats [t]) = floats [t].
Proof.
  intros t Ht. unfold pp_point, floats. cbn [map]. unfold pp_default, nan_to_num. rewrite PostFacts.np_clip_fin by lra.
  rewrite Rmin_left, Rmax_right by lra. reflexivity.
Qed.
