(** * Concrete cases for HyperSurfaceCBO *)
From Coq Require Import List Arith Bool Reals Lra Lia.
From Verif Require Import Scalar Np State Pdyn Exec RVec RVecFacts ConsSpec Cbo CboFacts MatSqrt MatSpec MemSpec Variant VarSpec VarFacts Script RegFacts
  MirrorSpec MirrorFacts MirrorProj ExMirror HyperMaps HyperSpec HyperFacts HyperDyn.
Import ListNotations.
Open Scope R_scope.

Lemma ex_hyper_any : forall S : @surface R vec, exists s0 s, minit = Ok s0 /\ vstep (hyper_inner S) mc morc (s0, tt) = Ok (s, tt) /\
  perms_valid morc s0 /\ s_active s0 <> [] /\ exists a dr dt sg, s_x s = [[h_proj S (map2 fsub (map2 fadd (floats [2]) (h_tan S (floats [2]) (floats [a]))) (h_nc S (Fin dt) (Fin sg) (floats [2]) (floats [dr])))]].
Proof.
  intros S. do 2 eexists. split; [reflexivity|]. split; [vm_compute; reflexivity|]. split. { intros m _. apply (perm_b_ok 1). reflexivity. }
  split; [discriminate|]. do 4 eexists. vm_compute. reflexivity.
Qed.

Lemma ex_hyper : exists (c : cfg R vec) s log, (forall v, c_pp c v = v) /\
  vexec (hyper_inner (surface_of SphereD NIso)) (fun _ => tt) c 1 (s, tt) log /\ surface_ok SphereD 1 /\
  cell (s_x s) 0 0 = Some (floats [1]).
Proof.
  destruct (ex_hyper_any (surface_of SphereD NIso)) as (s0 & s & I & HS & HP & HA & a & dr & dt & sg & Hx). exists mc, s. eexists. split; [reflexivity|]. split; [|split].
  - eapply vx_step; [|exact HP|exact HA|exact HS]. apply vx_init. exists [[floats [2]]], false, (Fin 0), (Fin 1), (Fin 1), (Fin 1), (fun _ => [0%nat]), None, [], None.
    split; [split; [reflexivity|repeat constructor]|]. split; [cbn; lia|]. split; [cbn; lia|]. split; [intros; apply (perm_b_ok 1); reflexivity|].
    split; [discriminate|]. exact I.
  - split; auto.
  - rewrite Hx. unfold cell. cbn [nth_error]. f_equal. cbn [surface_of h_tan h_proj h_nc]. assert (N2 : vnorm [2] = 2).
    { unfold vnorm, sqnorm, dot, Rsum. cbn. replace (2 * 2 + 0) with (2 * 2) by ring. apply sqrt_square. lra. }
    assert (G : sdf_grad SphereD (floats [2]) = floats [1]).
    { rewrite sphere_grad_fin by (rewrite N2; lra). unfold sphere_normal. rewrite N2. unfold vscal. cbn [map]. replace (/ 2 * 2) with 1 by field. auto. }
    rewrite (tan_fin SphereD [2] [a] [1]) by (auto; discriminate). unfold nc_iso. rewrite G. cbn [sdf_lap]. rewrite (fnorm_floats [2]), N2.
    replace (INR (length (floats [2])) - 1) with 0 by (cbn; ring). rewrite fdiv_fin by lra. rewrite fnorm_floats.
    assert (E : forall y, map2 fsub (map2 fadd (floats [2]) (floats (vsub [a] (vscal (dot [1] [a]) [1])))) (map (fmul (fmul (fmul (fdiv (fmul (Fin dt) (fmul (Fin sg) (Fin sg))) (Fin 2)) (Fin (0 / 2))) (fmul (Fin y) (Fin y)))) (floats [1])) = floats [2]).
    { intros y. cbn [fmul]. cbn [kmul KOps_R]. rewrite fdiv_fin by lra. cbn. f_equal. f_equal. unfold dot, Rsum. cbn. field. }
    rewrite E. exact G.
Qed.

Definition svd35 (w : vec) : option (mat * mat) :=
  match w with
  | [Fin a; Fin b] => if Req_EM_T a (3/5) then if Req_EM_T b (4/5) then Some ((fun i _ => nth i [3/5; 4/5] 0), (fun _ _ => 1)) else None else None
  | _ => None
  end.
Lemma svd35_ok : surface_ok (StiefelD 2 1 svd35) 2 /\ svd35 (floats [3/5; 4/5]) <> None /\ on_surface (StiefelD 2 1 svd35) [3/5; 4/5].
Proof.
  split; [|split].
  - split; [lia|]. split; [lia|]. split; [lia|]. intros w U Vh H. unfold svd35 in H. destruct w as [|[a| | |] [|[b| | |] [|c w]]]; try discriminate.
    destruct (Req_EM_T a (3/5)) as [->|]; [|discriminate]. destruct (Req_EM_T b (4/5)) as [->|]; [|discriminate]. injection H as <- <-.
    exists [3/5; 4/5], (fun _ => 1). split; auto. split; auto. apply ex_stiefel.
  - cbn. destruct (Req_EM_T (3/5) (3/5)); [|congruence]. destruct (Req_EM_T (4/5) (4/5)); congruence.
  - apply ex_stiefel.
Qed.

Lemma ex_surfaces : surface_ok SphereD 3 /\ surface_ok (PlaneD [3; 4] 1) 2 /\
  tangent SphereD [1; 0] [0; 5] /\ ~ tangent SphereD [1; 0] [1; 5].
Proof.
  split. { split; auto. } split. { split; [lia|]. split; auto. unfold vnorm, sqnorm, dot. cbn. replace (3 * 3 + (4 * 4 + 0)) with (5 * 5) by ring. rewrite sqrt_square; lra. }
  cbn [tangent]. unfold dot, Rsum. cbn. split; lra.
Qed.
