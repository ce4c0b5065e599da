(** * Shared arrays and shared tracker lists: examples *)
From Coq Require Import String List Arith Bool ZArith Lia.
From Verif Require Import Scalar Np State Pdyn Exec Script ExZ Alias AliasSpec AliasFacts Shared SharedSpec Variant.
Import ListNotations.
Open Scope string_scope.
Open Scope nat_scope.
Open Scope list_scope.

Definition al_c : cfg Z Z := zcfg sqf NoCorr 3 false false [].
Definition al_x0 : arr Z := [[7; -4; 9]]%Z.
Definition al_o : orc Z := zorc 1 [0; 1; 2].
Definition al_p : pproc Z := PNumpy (fun v => v) zclip.
Lemma al_pp : pp_is al_c al_p.
Proof. intros v. reflexivity. Qed.

Definition al_init : res (st Z Z) := init al_c al_x0 false (Fin 1%Z) (Fin 1%Z) (Fin 1%Z) (Fin 1%Z) (fun _ => [0; 1; 2]) (Some ["x"]) [] None.
Ltac value r := let v := eval vm_compute in r in match v with Ok ?s => exact s end.
Definition al_s0 : st Z Z := ltac:(value al_init).
Lemma al_s0_ok : al_init = Ok al_s0.
Proof. vm_compute. reflexivity. Qed.
Definition al_m0 : mem Z := Eval vm_compute in mem_init al_x0 (s_tracks al_s0).
Lemma al_m0_ok : mem_init al_x0 (s_tracks al_s0) = al_m0.
Proof. vm_compute. reflexivity. Qed.
Definition al_r (b : binding) := mem_step b al_p cbo_step al_c al_o (al_s0, al_m0).
Definition al_1 : arr Z * (st Z Z * mem Z) := ltac:(value (al_r InPlace)).
Definition al_y1 := Eval vm_compute in fst al_1.
Definition al_s1 := Eval vm_compute in fst (snd al_1).
Definition al_m1 := Eval vm_compute in snd (snd al_1).
Lemma al_1_ok : mem_step InPlace al_p cbo_step al_c al_o (al_s0, al_m0) = Ok (al_y1, (al_s1, al_m1)).
Proof. vm_compute. reflexivity. Qed.
Definition al_2 : arr Z * (st Z Z * mem Z) := ltac:(value (al_r NewArray)).
Definition al_y2 := Eval vm_compute in fst al_2.
Definition al_s2 := Eval vm_compute in fst (snd al_2).
Definition al_m2 := Eval vm_compute in snd (snd al_2).
Lemma al_2_ok : mem_step NewArray al_p cbo_step al_c al_o (al_s0, al_m0) = Ok (al_y2, (al_s2, al_m2)).
Proof. vm_compute. reflexivity. Qed.

Lemma al_start : forall b, mrun b al_p cbo_step al_c al_x0 ["x"] [] al_s0 al_m0.
Proof. intros b. rewrite <- al_m0_ok. apply (mr_init _ _ _ _ _ _ false (Fin 1%Z) (Fin 1%Z) (Fin 1%Z) (Fin 1%Z) (fun _ => [0; 1; 2]) None). exact al_s0_ok. Qed.
Lemma al_lost : exists y x s m, mrun InPlace al_p cbo_step al_c al_x0 ["x"] [(y, x)] s m /\ x <> map (map zclip) al_x0 /\
  hist_get "x" (s_hist s) = Some [HX al_x0; HX x] /\ map (deref m) (m_hist m) = [Some x; Some x].
Proof.
  exists al_y1, (s_x al_s1), al_s1, al_m1. split.
  { exact (mr_step InPlace al_p cbo_step al_c al_x0 ["x"] [] al_s0 al_m0 al_o al_y1 al_s1 al_m1 (al_start InPlace) al_1_ok). }
  split; [vm_compute; discriminate|]. split; vm_compute; reflexivity.
Qed.
Lemma al_kept : exists y x s m, mrun NewArray al_p cbo_step al_c al_x0 ["x"] [(y, x)] s m /\ x <> al_x0 /\ map (deref m) (m_hist m) = [Some al_x0; Some x].
Proof.
  exists al_y2, (s_x al_s2), al_s2, al_m2. split.
  { exact (mr_step NewArray al_p cbo_step al_c al_x0 ["x"] [] al_s0 al_m0 al_o al_y2 al_s2 al_m2 (al_start NewArray) al_2_ok). }
  split; [vm_compute; discriminate|]. vm_compute; reflexivity.
Qed.
Lemma al_user : exists s m, mexec InPlace al_p cbo_step al_c al_x0 s m /\ s_x s <> al_x0 /\ s_it s = 1 /\ deref m (m_user m) = Some al_x0.
Proof.
  exists al_s1, al_m1. split.
  { apply (me_step _ _ _ _ _ al_s0 al_m0 al_o al_y1); [|exact al_1_ok]. rewrite <- al_m0_ok. apply (me_init _ _ _ _ _ false (Fin 1%Z) (Fin 1%Z) (Fin 1%Z) (Fin 1%Z) (fun _ => [0; 1; 2]) (Some ["x"]) [] None). exact al_s0_ok. }
  split; [vm_compute; discriminate|]. split; vm_compute; reflexivity.
Qed.

(** two dynamics built from track_args = {'names': ['energy','x'], 'extra_tracks': []}; the first one makes a step *)
Definition fa_b := build al_c al_x0 false (Fin 1%Z) (Fin 1%Z) (Fin 1%Z) (Fin 1%Z) (fun _ => [0; 1; 2]) ["energy"; "x"] None.
Definition fa_1 : list trk * list (st Z Z) := ltac:(value (fa_b ([], []))).
Lemma fa_1_ok : fa_b ([], []) = Ok fa_1.
Proof. vm_compute. reflexivity. Qed.
Definition fa_2 : list trk * list (st Z Z) := ltac:(value (fa_b fa_1)).
Lemma fa_2_ok : fa_b fa_1 = Ok fa_2.
Proof. vm_compute. reflexivity. Qed.
Lemma fa_two : exists L D s s' x, family [] ["energy"; "x"] 2 L D /\ nth_error D 0 = Some s /\ step al_c al_o (set_tracks L s) = Ok s' /\
  L = [TEnergy; TX; TEnergy; TX] /\ hist_get "x" (s_hist s) = Some [HX al_x0] /\ hist_get "x" (s_hist s') = Some [HX al_x0; HX x; HX x].
Proof.
  exists (fst fa_2), (snd fa_2). do 3 eexists. split. { apply (fa_build _ _ 1 (fst fa_1) (snd fa_1) al_c al_x0 false (Fin 1%Z) (Fin 1%Z) (Fin 1%Z) (Fin 1%Z) (fun _ => [0; 1; 2]) None); [|exact fa_2_ok]. apply (fa_build _ _ 0 [] [] al_c al_x0 false (Fin 1%Z) (Fin 1%Z) (Fin 1%Z) (Fin 1%Z) (fun _ => [0; 1; 2]) None); [apply fa_start|exact fa_1_ok]. }
  split; [vm_compute; reflexivity|]. split; [vm_compute; reflexivity|]. split; [vm_compute; reflexivity|]. split; vm_compute; reflexivity.
Qed.
(** a second dynamic with the names ['x'] makes the next step of the first one, which tracks 'energy', raise *)
Lemma fa_error : exists s, build al_c al_x0 false (Fin 1%Z) (Fin 1%Z) (Fin 1%Z) (Fin 1%Z) (fun _ => [0; 1; 2]) ["energy"] None ([], []) = Ok ([TEnergy], [s]) /\
  hist_get "x" (s_hist s) = None /\ s_it s mod s_save s = 0 /\ (exists s', step al_c al_o s = Ok s') /\
  step al_c al_o (set_tracks ([TEnergy] ++ map known_track ["x"]) s) = Err KeyError.
Proof. eexists. split; [vm_compute; reflexivity|]. split; [vm_compute; reflexivity|]. split; [vm_compute; reflexivity|]. split; [eexists; vm_compute; reflexivity|vm_compute; reflexivity]. Qed.
