(** * Convexity: examples *)
From Coq Require Import String List Arith Bool Reals Lia Lra.
From Verif Require Import Scalar Np NpFacts RFacts State Pdyn PdynRun PdynOk Exec RunFacts Script RVec RVecFacts Consensus ConsSpec ConsFacts PostProc Cbo CboSpec CboFacts ExCbo ProxSpec ConvSpec ConvFacts.
Import ListNotations.
Open Scope R_scope.

Lemma sqnorm_convex : forall d, convex_fun d sqnorm.
Proof.
  intros d p. revert d. induction p as [|x p IH]; intros d [|y q] t Lp Lq Ht; cbn in Lp, Lq; try lia.
  - unfold mix. cbn. lra.
  - specialize (IH (length p) q t eq_refl ltac:(lia) Ht). change (mix t (x :: p) (y :: q)) with (((1 - t) * x + t * y) :: mix t p q).
    rewrite !sqnorm_cons. assert (0 <= t * (1 - t) * ((x - y) * (x - y))) by (apply Rmult_le_pos; [apply Rmult_le_pos; lra|apply Rle_0_sqr]). lra.
Qed.
Lemma sqf_objective : forall d, objective_is d sqf sqnorm.
Proof. intros d p _. apply sqf_floats. Qed.
Lemma cX_energy : forall p, In p cX -> sqnorm p <= 5.
Proof. intros p [<-|[<-|[<-|[]]]]; unfold sqnorm, dot; cbn; lra. Qed.
(** mini-batches of two, partial updates *)
Definition qc : cfg R vec := cbo_cfg sqf NAniso (fun p => p) NoCorr 2 true false [] false.
Lemma conv_case : exists s s', exec qc s [] /\ finite_alpha s /\ quiet s /\ ensemble_at s 0 2 cX /\ run_in (fun p => sqnorm p <= 5) s 0 2 /\ step qc corc s = Ok s' /\ quietly qc 2 s s'.
Proof.
  destruct (cinit_ok qc 1 1 (1 / 2) 0) as (s & _ & E & HM & HN & HA & P & FA & HP & HX & _ & _ & _). cbn; lia. lra.
  destruct (exec_step_good qc s [] corc E (cbo_plain _ _ _ _ _ _ _ _ _) P) as (s2 & HS).
  exists s, s2. split; auto. split; auto. split. exists 1, (1 / 2). split; auto. lra. split; auto. split; [exists cX; split; auto; apply cX_energy|]. split; auto.
  eapply qu_step; [apply qu_start|exact P|exact corc_finite|auto].
Qed.
(** a quasi-convex function that is not convex *)
Lemma steep_quasi : quasiconvex 1 (fun p => Rmin 1 (Rabs (coord 0 p))).
Proof.
  intros p q t Lp Lq Ht. rewrite (mix_coord _ _ _ 1) by auto. set (x := coord 0 p). set (y := coord 0 q).
  assert (A : Rabs ((1 - t) * x + t * y) <= Rmax (Rabs x) (Rabs y)).
  { eapply Rle_trans; [apply Rabs_triang|]. rewrite !Rabs_mult, (Rabs_right (1 - t)), (Rabs_right t) by lra.
    pose proof (Rmax_l (Rabs x) (Rabs y)). pose proof (Rmax_r (Rabs x) (Rabs y)). nra. }
  unfold Rmax in *. repeat match goal with |- context[Rle_dec ?a ?b] => destruct (Rle_dec a b) end; destruct (Rle_dec (Rabs x) (Rabs y)); unfold Rmin in *;
    repeat match goal with |- context[Rle_dec ?a ?b] => destruct (Rle_dec a b) | H : context[Rle_dec ?a ?b] |- _ => destruct (Rle_dec a b) end; lra.
Qed.
(** two particles at -1 and 1 with the energy 1 - x^2: the consensus 0 is worse than both *)
Definition hill (v : vec) : fl R := fsub (Fin 1) (sqf v).
Lemma consensus_above : exists (f : vec -> fl R) g X a, objective_is 1 f g /\ 0 <= a /\ (forall p, In p X -> length p = 1%nat) /\
  exists p, cc_default (map f (map floats X)) (map floats X) (Fin a) = [floats p] /\ forall x, In x X -> g x < g p.
Proof.
  exists hill, (fun p => 1 - sqnorm p), [[-1]; [1]], 1. 
  assert (HO : objective_is 1 hill (fun p => 1 - sqnorm p)). { intros p Lp. unfold hill. rewrite sqf_floats. reflexivity. }
  split; auto. split; [lra|]. split; [intros p [<-|[<-|[]]]; auto|].
  rewrite (objective_map 1 hill (fun p => 1 - sqnorm p)) by (auto; intros p [<-|[<-|[]]]; auto).
  eexists. split. apply (consensus_gibbs 1 _ 1).
  - split. intros e [<-|[<-|[]]]; eauto. eexists. cbn. eauto.
  - split; auto. intros p [<-|[<-|[]]]; auto.
  - assert (Q : gibbs_point 1 (map (fun p => Fin (1 - sqnorm p)) [[-1]; [1]]) 1 [[-1]; [1]] = [0]).
    { unfold gibbs_point, gibbs_mean, coord, sqnorm, dot. cbn. f_equal. unfold Rdiv. apply Rmult_eq_0_compat_r.
      replace (-1 * -1) with (1 * 1) by ring. ring. }
    rewrite Q. intros x [<-|[<-|[]]]; unfold sqnorm, dot; cbn; lra.
Qed.
