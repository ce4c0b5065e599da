(** * Mirror maps: examples *)
From Coq Require Import String List Arith Bool Reals Lra Lia.
From Verif Require Import Scalar Np State Pdyn Exec RVec RVecFacts ConsSpec Cbo CboSpec CboFacts Script MatSqrt MatSpec MatFacts MemSpec Variant VarSpec
  MirrorMaps MirrorSpec MirrorFacts MirrorProj.
Import ListNotations.
Open Scope R_scope.

Lemma sqrt_25 : sqrt 25 = 5.
Proof. replace 25 with (5 * 5) by lra. apply sqrt_square. lra. Qed.

Lemma ex_sets : ball 2 (along 2 [0]) [1; 1] /\ plane [1; 1] 3 [1; 2] /\ sqnorm [1; 1] <> 0 /\ sphere 5 [3; 4] /\ square 1 [1; -1/2].
Proof.
  split. { unfold ball, dist, vnorm, sqnorm, dot, vsub, Rsum. cbn. apply Rle_trans with (sqrt (2 * 2)). apply sqrt_le_1; lra. rewrite sqrt_square; lra. }
  split. { unfold plane, dot, Rsum. cbn. lra. }
  split. { unfold sqnorm, dot, Rsum. cbn. lra. }
  split. { unfold sphere, vnorm, sqnorm, dot, Rsum. cbn. rewrite <- sqrt_25. f_equal. lra. }
  split. { intros a [<-|[<-|[]]]. rewrite Rabs_R1. lra. rewrite Rabs_left; lra. } exists 1. split. left; auto. apply Rabs_R1.
Qed.

Lemma ex_stiefel : svd_of 2 1 [3/5; 4/5] (fun i _ => nth i [3/5; 4/5] 0) (fun _ => 1) (fun _ _ => 1) /\ stiefel 2 1 [3/5; 4/5].
Proof.
  assert (H1 : forall i, (i < 1)%nat -> i = 0%nat) by (intros; lia).
  split; [split; [|split; [|split; [|split]]]|].
  - intros i j Hi Hj. rewrite (H1 i Hi), (H1 j Hj). unfold mmul, msum, mtr, mid, Rsum. cbn. lra.
  - intros i j Hi Hj. rewrite (H1 i Hi), (H1 j Hj). unfold mmul, msum, mtr, mid, Rsum. cbn. lra.
  - intros i j Hi Hj. rewrite (H1 i Hi), (H1 j Hj). unfold mmul, msum, mtr, mid, Rsum. cbn. lra.
  - intros. lra.
  - intros i j Hi Hj. rewrite (H1 j Hj). destruct i as [|[|i]]; try lia; unfold entry, msum, Rsum; cbn; lra.
  - intros i j Hi Hj. rewrite (H1 i Hi), (H1 j Hj). unfold mmul, msum, mtr, mid, entry, Rsum. cbn. lra.
Qed.

Lemma ex_ball : [3; 4] <> repeat 0 (length [3; 4]) /\ mm_conj (ProjectionBall 1 [0]) (floats [3; 4]) = floats [3/5; 4/5].
Proof.
  split. { intros E. injection E. lra. }
  rewrite ball_conj by lra. f_equal. unfold ball_point. cbn [along length repeat].
  assert (E : vnorm (vsub [3; 4] [0; 0]) = 5). { unfold vnorm, sqnorm, dot, vsub, Rsum. cbn. rewrite <- sqrt_25. f_equal. lra. }
  rewrite E. rewrite Rmax_right by lra. unfold vadd, vscal, vsub. cbn. f_equal; [|f_equal]; field.
Qed.

Lemma ex_defects : 0 < 1/2 < 1 /\ [1/4; 1/8] <> repeat 0 (length [1/4; 1/8]) /\ all_coord (fun a => Rabs a < 2) [1/4; 1/8] /\
  ~ plane (repeat 1 2) 3 [1; 1].
Proof.
  split. lra. split. { intros E. injection E. lra. } split. { intros a [<-|[<-|[]]]; rewrite Rabs_right; lra. }
  unfold plane, dot, Rsum. cbn. lra.
Qed.

Definition mc : cfg R vec :=
  {| c_f := fun _ => PInf; c_vadd := map2 fadd; c_vsub := map2 fsub; c_vscale := fun a => map (fmul a);
     c_norm := fun _ => Fin 0; c_dmean := fun _ => Fin 0; c_ccrow := fun e x a => [hd [] x]; c_noise := fun dt d z => z; c_pp := fun v => v;
     c_corr := NoCorr; c_bsize := 1; c_partial := false; c_concat := false; c_crit := []; c_savepts := false |}.
Definition morc : orc vec := {| o_z := fun _ _ => floats [0]; o_perm := fun _ => [0%nat] |}.
Definition minit : res (st R vec) := init mc [[floats [2]]] false (Fin 0) (Fin 1) (Fin 1) (Fin 1) (fun _ => [0%nat]) None [] None.

Lemma ex_mirror_any : forall gc : vec -> vec, exists s0 s y, minit = Ok s0 /\ vstep (mirror_inner gc) mc morc (s0, mirror_attr (fun v => v) s0) = Ok (s, y) /\
  perms_valid morc s0 /\ s_active s0 <> [] /\ exists w, y = [[floats [w]]] /\ w = 2 /\ s_x s = [[gc (floats [w])]].
Proof.
  intros gc. do 3 eexists. split; [reflexivity|]. split; [vm_compute; reflexivity|]. split. { intros m _. apply (perm_b_ok 1). reflexivity. }
  split; [discriminate|]. eexists. split; [vm_compute; reflexivity|]. split; [|vm_compute; reflexivity]. ring.
Qed.

Lemma ex_mirror : exists (c : cfg R vec) s y log,
  vexec (mirror_inner (mm_conj (ProjectionBall (1/2) [0]))) (mirror_attr (mm_grad (ProjectionBall (1/2) [0]))) c 1 (s, y) log /\
  cell y 0 0 = Some (floats [2]) /\ cell (s_x s) 0 0 = Some (floats [1/2]).
Proof.
  pose proof (ex_mirror_any (mm_conj (ProjectionBall (1/2) [0]))) as H.
  destruct H as (s0 & s & y & I & HS & HP & HA & w & -> & -> & Hx). exists mc, s, [[floats [2]]]. eexists. split; [|split].
  - eapply vx_step; [|exact HP|exact HA|exact HS]. apply vx_init. exists [[floats [2]]], false, (Fin 0), (Fin 1), (Fin 1), (Fin 1), (fun _ => [0%nat]), None, [], None.
    split; [split; [reflexivity|repeat constructor]|]. split; [cbn; lia|]. split; [cbn; lia|]. split; [intros; apply (perm_b_ok 1); reflexivity|].
    split; [discriminate|]. exact I.
  - reflexivity.
  - rewrite Hx. cbn [cell nth_error]. rewrite ball_conj by lra. unfold cell. cbn [nth_error]. f_equal. f_equal. unfold ball_point. cbn [along length repeat].
    assert (E : vnorm (vsub [2] [0]) = 2). { unfold vnorm, sqnorm, dot, vsub, Rsum. cbn. replace ((2 - 0) * (2 - 0) + 0) with (2 * 2) by ring. apply sqrt_square. lra. }
    rewrite E. rewrite Rmax_right by lra. unfold vadd, vscal, vsub. cbn. f_equal. field.
Qed.
