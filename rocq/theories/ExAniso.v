(** * Anisotropic noise and rotations: a counterexample *)
From Coq Require Import String List Arith Bool Reals Permutation Lia Lra.
From Verif Require Import Scalar Np NpFacts State Pdyn PdynRun PdynOk RunFacts Exec Script RVec RVecFacts Consensus ConsSpec Cbo CboSpec CboFacts TwinSpec TwinFacts SymFacts SymLaws ExCbo MomentSpec MomentFacts.
Import ListNotations.
Open Scope R_scope.

Definition slant : list (list R) := [[3/5; -4/5]; [4/5; 3/5]].
Definition anc : cfg R vec := cbo_cfg sqf NAniso (fun v => v) NoCorr 3 true false [] false.
Definition sX : list (list R) := map (lin slant) cX.
Definition sx0 : arr vec := map (map (rotate slant)) cx0.

Lemma slant_isometry : isometry 2 slant.
Proof.
  split; [reflexivity|]. split; [intros r [<-|[<-|[]]]; reflexivity|]. intros u Hu. destruct u as [|a [|b [|? ?]]]; try discriminate. unfold sqnorm, dot; cbn; field.
Qed.

Theorem aniso_rotation : exists s s1 s1', isometry 2 slant /\ finite_obj 2 sqf /\
  (forall p, length p = 2%nat -> sqf (floats (map (fun r => dot r p) slant)) = sqf (floats p)) /\
  cinit anc 1 1 1 1 = Ok s /\ step anc corc s = Ok s1 /\
  paired (rotate slant) anc anc (rotate slant) (finite_state 2) (finite_draws 2) s1 s1' /\
  s_x s1' <> map (map (rotate slant)) (s_x s1).
Proof.
  destruct (cinit_ok anc 1 1 1 1) as (s & I & E & HM & HN & HA & P & FA & PA & EA & _ & FS & HX); [cbn; lia|lra|].
  set (o' := {| o_z := fun k n => rotate slant (o_z corc k n); o_perm := o_perm corc |}).
  assert (Q : exists s', init anc sx0 false (Fin 1) (Fin 1) (Fin 1) (Fin 1) (fun _ => [2; 0; 1]%nat) None [] None = Ok s' /\ s_N s' = 3%nat /\ s_M s' = 2%nat /\ s_active s' = [0; 1]%nat /\
     parameters 1 1 1 s' /\ s_x s' = sx0 /\ nth_error (s_alpha s') 0 = Some [Fin 1]).
  { eexists. split; [reflexivity|]. repeat split; try reflexivity. lra. }
  destruct Q as (s' & I' & HN' & HM' & HA' & PA' & HX' & AL').
  assert (E' : exec anc s' []).
  { apply ex_init. exists sx0, false, (Fin 1), (Fin 1), (Fin 1), (Fin 1), (fun _ => [2; 0; 1]%nat), None, [], None.
    split; [split; [reflexivity|repeat constructor]|]. split; [cbn; lia|]. split; [cbn; lia|].
    split; [|split; [discriminate|exact I']]. intros m _. apply (perm_b_ok 3). reflexivity. }
  assert (P' : perms_valid o' s'). { intros m Hm. rewrite HN'. apply (perm_b_ok 3). reflexivity. }
  destruct (exec_step_good anc s [] corc E (cbo_plain _ _ _ _ _ _ _ _ _) P) as (s1 & HS).
  destruct (exec_step_good anc s' [] o' E' (cbo_plain _ _ _ _ _ _ _ _ _) P') as (s1' & HS').
  exists s, s1, s1'. split; [exact slant_isometry|]. split; [apply sqf_finite|]. split.
  { intros p Hp. rewrite !sqf_floats. f_equal. apply slant_isometry; auto. }
  split; [exact I|]. split; [exact HS|]. split.
  { eapply pa_step; [|exact P|exact corc_finite|exact HS|exact HS'].
    eapply (pa_init (rotate slant) anc anc (rotate slant) _ _ cx0 false); eauto.
    - split; [reflexivity|repeat constructor].
    - cbn; lia.
    - cbn; lia.
    - intros m _. apply (perm_b_ok 3). reflexivity.
    - discriminate. }
  intros Bad.
  assert (EA' : ensemble_at s' 0 2 sX).
  { split; [rewrite HX'; unfold sx0, cx0, sX; cbn [map nth_error]; f_equal; rewrite !map_map; apply map_ext; intros; apply rotate_floats|]. split; [rewrite HN'; reflexivity|].
    intros p Hp. unfold sX in Hp. apply in_map_iff in Hp. destruct Hp as (q & <- & _). reflexivity. }
  assert (AL : nth_error (s_alpha s) 0 = Some [Fin 1]). { injection I as <-. reflexivity. }
  set (g := gibbs_point 1 (map sqf (map floats cX)) 2 cX). set (g' := gibbs_point 1 (map sqf (map floats sX)) 2 sX).
  assert (K : forall n x, nth_error cX n = Some x -> lin slant (rmove NAniso 1 1 1 g x [INR n + 1; -1]) = rmove NAniso 1 1 1 g' (lin slant x) (lin slant [INR n + 1; -1])).
  { intros n x Hn.
    destruct (particle_step sqf NAniso 3 true false [] false s [] corc s1 0 2 cX 1 1 1 1 0 n x [INR n + 1; -1] E P (sqf_finite 2) PA (eq_sym HN) ltac:(rewrite HA; reflexivity) EA AL Hn eq_refl HS) as (xr & R1 & R2).
    assert (Hn' : nth_error sX n = Some (lin slant x)) by (unfold sX; rewrite nth_error_map, Hn; reflexivity).
    destruct (particle_step sqf NAniso 3 true false [] false s' [] o' s1' 0 2 sX 1 1 1 1 0 n (lin slant x) (lin slant [INR n + 1; -1]) E' P' (sqf_finite 2) PA' (eq_sym HN') ltac:(rewrite HA'; reflexivity) EA' AL' Hn' ltac:(cbn [o' o_z corc]; apply rotate_floats) HS') as (xr' & R1' & R2').
    rewrite Bad, nth_error_map, R1 in R1'. cbn in R1'. injection R1' as <-. rewrite nth_error_map, R2 in R2'. cbn [option_map] in R2'. rewrite rotate_floats in R2'.
    apply floats_inj. exact (f_equal (fun o => match o with Some v => v | None => [] end) R2'). }
  assert (Lg : exists u v, g = [u; v]) by (eexists; eexists; reflexivity). assert (Lg' : exists u v, g' = [u; v]) by (eexists; eexists; reflexivity).
  clearbody g g'. destruct Lg as (u & v & ->). destruct Lg' as (u' & v' & ->).
  pose proof (K 0%nat [0; 1] eq_refl) as K0. pose proof (K 1%nat [2; 1] eq_refl) as K1. pose proof (K 2%nat [-1; 1] eq_refl) as K2. clear - K0 K1 K2.
  unfold rmove, rnoise, lin, slant, dot, vadd, vscal, vsub in *. cbn [map map2 fold_right Rsum INR] in *. rewrite sqrt_1 in *. 
  injection K0 as A0 B0. injection K1 as A1 B1. injection K2 as A2 B2. clear B0 B1 B2.
  assert (U : u' = -4/5) by lra. subst u'. assert (W : u = 0) by lra. subst u. lra.
Qed.
Theorem aniso_refuted : exists f A s1 s1', let c := cbo_cfg f NAniso (fun v => v) NoCorr 3 true false [] false in
  finite_obj 2 f /\ isometry 2 A /\ (forall p, length p = 2%nat -> f (floats (map (fun r => dot r p) A)) = f (floats p)) /\
  paired (rotate A) c c (rotate A) (finite_state 2) (finite_draws 2) s1 s1' /\ s_x s1' <> map (map (rotate A)) (s_x s1).
Proof. destruct aniso_rotation as (s & s1 & s1' & H1 & H2 & H3 & _ & _ & H4 & H5). exists sqf, slant, s1, s1'. repeat split; auto; apply H1. Qed.
