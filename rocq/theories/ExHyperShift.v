(** * HyperSurfaceCBO and translations along a plane: a counterexample *)
From Coq Require Import String List Arith Bool Reals Permutation Lia Lra.
From Verif Require Import Scalar Np NpFacts State Pdyn PdynRun PdynOk Exec Script RVec RVecFacts Consensus ConsSpec MirrorSpec HyperMaps HyperSpec Cbo CboSpec CboFacts TwinSpec
  Variant VarSpec MemSpec MomentSpec HyperRun HyperMoveSpec HyperMoveFacts HyperMoveRun HyperTotal HyperMoveMore.
Import ListNotations.
Open Scope R_scope.

Definition pinit (k : noise_model) (al sg la dt : R) (x0 : arr vec) : res (st R vec) :=
  init (hyper_cfg (fun _ => Fin 0) k (fun v => v) 2 true false [] false) x0 false (Fin al) (Fin sg) (Fin la) (Fin dt) (fun _ => [0; 1]%nat) None [] None.

Lemma line_ok : surface_ok (PlaneD [1; 0] 3) 2.
Proof. split; [lia|]. split; auto. unfold vnorm, sqnorm, dot. cbn. replace (_ + _) with 1 by ring. rewrite sqrt_1. lra. Qed.

Lemma pfirst : forall k al sg la dt y o, k <> NConst -> 0 < dt -> finite_draws 2 o -> (forall m, Permutation (o_perm o m) [0; 1]%nat) ->
  exists s r, pinit k al sg la dt [repeat (floats [3; y]) 2] = Ok s /\ s_M s = 1%nat /\ s_N s = 2%nat /\
    vstep (hyper_inner (surface_of (PlaneD [1; 0] 3) k)) (hyper_cfg (fun _ => Fin 0) k (fun v => v) 2 true false [] false) o (s, tt) = Ok (r, tt) /\
    cell (s_x r) 0 0 = Some (floats [3; (1 + dt) * y]).
Proof.
  intros k al sg la dt y o Hk Hdt HD HO. set (c := hyper_cfg (fun _ => Fin 0) k (fun v => v) 2 true false [] false). set (S := surface_of (PlaneD [1; 0] 3) k).
  assert (Q : exists s, pinit k al sg la dt [repeat (floats [3; y]) 2] = Ok s /\ s_M s = 1%nat /\ s_N s = 2%nat /\ s_active s = [0]%nat /\ s_alpha s = [[Fin al]] /\ parameters la dt sg s /\ all_at s 0 [3; y]).
  { eexists. split; [reflexivity|]. repeat split; try reflexivity. lra. }
  destruct Q as (s & I & HM & HN & Ha & Hal & Hp & AA).
  assert (P : perms_valid o s). { intros m _. rewrite HN. apply (HO m). }
  assert (E : vexec (hyper_inner S) (fun _ => tt) c 0 (s, tt) []).
  { apply (vx_init (hyper_inner S) (fun _ => tt)). exists [repeat (floats [3; y]) 2], false, (Fin al), (Fin sg), (Fin la), (Fin dt), (fun _ => [0; 1]%nat), None, [], None.
    split; [split; [reflexivity|repeat constructor]|]. split; [cbn; lia|]. split; [cbn; lia|]. split; [|split; [discriminate|exact I]]. intros m _. apply (perm_b_ok 2). reflexivity. }
  assert (C1 : one_consensus_point c) by (intros e x a; reflexivity).
  assert (L1 : length (s_active s) = s_M s) by (rewrite Ha, HM; reflexivity).
  destruct (hyper_total S c 0 s tt [] o C1 E P L1) as (r & HS).
  assert (M : moves c S 2 s 1 r). { eapply mv_step; [constructor| | | | |exact HS]; auto. rewrite Ha. discriminate. }
  assert (FA : finite_alpha s). { intros m Hm. rewrite HM in Hm. exists al. assert (m = 0)%nat as -> by lia. rewrite Hal. reflexivity. }
  pose proof (runs_away (fun _ => Fin 0) k (fun v => v) 2 true false [] false (PlaneD [1; 0] 3) [1; 0] 3 0 s [] 2 0 [3; y] dt 1 r eq_refl line_ok
    ltac:(unfold plane, dot; cbn; ring) eq_refl Hk ltac:(eauto) ltac:(auto) E FA ltac:(exists la, dt, sg; exact Hp) ltac:(apply Hp) AA M) as B.
  exists s, r. split; [exact I|]. split; [exact HM|]. split; [exact HN|]. split; [exact HS|].
  destruct (moves_keep (fun _ => Fin 0) k (fun v => v) 2 true false [] false (PlaneD [1; 0] 3) 0 s [] 2 1 r E M) as (_ & _ & K2 & _).
  unfold all_at in B. rewrite K2, HN in B. unfold cell. rewrite B. cbn [repeat nth_error]. f_equal. f_equal. unfold foot, vadd, vsub, vscal, sqnorm, dot. cbn. f_equal; [|f_equal]; field.
Qed.

Theorem plane_translation : forall k al sg la dt o, k <> NConst -> 0 < dt -> finite_draws 2 o -> (forall m, Permutation (o_perm o m) [0; 1]%nat) ->
  let c := hyper_cfg (fun _ => Fin 0) k (fun v => v) 2 true false [] false in let S := surface_of (PlaneD [1; 0] 3) k in
  exists a x0 s s' r r', (forall q, plane [1; 0] 3 q -> length q = 2%nat -> plane [1; 0] 3 (vadd q a)) /\
    init c x0 false (Fin al) (Fin sg) (Fin la) (Fin dt) (fun _ => [0; 1]%nat) None [] None = Ok s /\
    init c (map (map (translate a)) x0) false (Fin al) (Fin sg) (Fin la) (Fin dt) (fun _ => [0; 1]%nat) None [] None = Ok s' /\
    perms_valid o s /\ vstep (hyper_inner S) c o (s, tt) = Ok (r, tt) /\ vstep (hyper_inner S) c o (s', tt) = Ok (r', tt) /\ s_x r' <> map (map (translate a)) (s_x r).
Proof.
  intros k al sg la dt o Hk Hdt HD HO c S.
  destruct (pfirst k al sg la dt 4 o Hk Hdt HD HO) as (s & r & I & HM & HN & HS & HC).
  destruct (pfirst k al sg la dt 5 o Hk Hdt HD HO) as (s' & r' & I' & HM' & HN' & HS' & HC').
  exists [0; 1], [repeat (floats [3; 4]) 2], s, s', r, r'. split.
  { intros q Hq L. destruct q as [|u [|v [|? ?]]]; try discriminate L. unfold plane, dot in *. cbn in *. lra. }
  split; [exact I|]. split.
  { unfold pinit in I'. rewrite <- I'. f_equal. cbn. repeat (f_equal; try ring). }
  split; [intros m _; rewrite HN; apply HO|]. split; [exact HS|]. split; [exact HS'|].
  intros Bad. unfold cell in HC, HC'. rewrite Bad, nth_error_map in HC'. destruct (nth_error (s_x r) 0) as [row|]; [|discriminate HC]. cbn [option_map] in HC'.
  rewrite nth_error_map, HC in HC'. cbn in HC'. injection HC' as E1 E2. nra.
Qed.
