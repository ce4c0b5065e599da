(** * Concrete moves of the variants *)
From Coq Require Import String List Arith Bool ZArith Permutation Lia.
From Verif Require Import Scalar Np State Pdyn Exec Script ExZ ExVar RegSched RegVar Variant VarSpec.
Import ListNotations.
Open Scope nat_scope.
Open Scope list_scope.

(** v^2 with penalty 2 |v| *)
Definition mvf (v : Z) : fl Z := Fin (v * v)%Z.
Definition mvreg (v : Z) : fl Z := Fin (Z.abs v).
Definition mvc : cfg Z Z := zcfg (fun v => Fin (v * v + 2 * Z.abs v)%Z) NoCorr 2 false false [].
Definition mvinner := reg_inner (reg_call mvf mvreg (fun y => y)) (Some (fun fac v xt => Ok (xt + 100 * v)%Z)) (Fin 1%Z).
Definition mvsurf : surface (K := Z) (V := Z) := mksurface (fun x z => (2 * z)%Z) (fun v => (v + 1)%Z) (fun dt sg x d => d).

Lemma ex_dc_move : exists n s u log, vexec (dc_inner (Some zmulti) (Fin 1%Z)) (fun _ : st Z Z => tt) zcv n (s, u) log /\
  one_consensus_point zcv /\ perms_valid (zorc 3 [0; 1]) s /\ length (s_active s) = s_M s /\ s_M s = 2 /\ s_x s = [[10; 9]; [7; 6]]%Z /\
  exists s' u', vstep (dc_inner (Some zmulti) (Fin 1%Z)) zcv (zorc 3 [0; 1]) (s, u) = Ok (s', u') /\
    s_x s' = [[10 - ((10 - 9) + 10 + 3); 9 - (0 + 9 + 4)]; [7 - ((7 - 6) + 7 + 3); 6 - (0 + 6 + 4)]]%Z.
Proof.
  run_vscript (vscript (dc_inner (Some zmulti) (Fin 1%Z)) (fun _ : st Z Z => tt) zcv [[10; 9]; [7; 6]]%Z (Fin 1%Z) (Fin 1%Z) (Fin 1%Z) (Fin 1%Z) [0; 1] [ATerm]).
  split; [apply zbest_one|]. split; [apply zperm_valid; reflexivity|]. split; [reflexivity|]. split; [reflexivity|]. split; [reflexivity|].
  eexists _, _. split; [vm_compute; reflexivity|]. reflexivity.
Qed.

Lemma ex_hyper_move : exists n s u log, vexec (hyper_inner mvsurf) (fun _ : st Z Z => tt) zcv n (s, u) log /\
  one_consensus_point zcv /\ perms_valid (zorc 3 [0; 1]) s /\ length (s_active s) = s_M s /\ s_M s = 2 /\ s_x s = [[10; 9]; [7; 6]]%Z /\
  exists s' u', vstep (hyper_inner mvsurf) zcv (zorc 3 [0; 1]) (s, u) = Ok (s', u') /\
    s_x s' = [[10 + 2 * (9 + 3) - (10 - 9) + 1; 9 + 2 * (9 + 4) - 0 + 1]; [7 + 2 * (6 + 3) - (7 - 6) + 1; 6 + 2 * (6 + 4) - 0 + 1]]%Z.
Proof.
  run_vscript (vscript (hyper_inner mvsurf) (fun _ : st Z Z => tt) zcv [[10; 9]; [7; 6]]%Z (Fin 1%Z) (Fin 1%Z) (Fin 1%Z) (Fin 1%Z) [0; 1] [ATerm]).
  split; [apply zbest_one|]. split; [apply zperm_valid; reflexivity|]. split; [reflexivity|]. split; [reflexivity|]. split; [reflexivity|].
  eexists _, _. split; [vm_compute; reflexivity|]. reflexivity.
Qed.

Lemma ex_reg_move : exists n s ob log, vexec mvinner (reg_attr (Fin 2%Z)) mvc n (s, ob) log /\
  penalised mvf mvreg (fun y => y) (Fin 2%Z) mvc /\
  one_consensus_point mvc /\ perms_valid (zorc 3 [0; 1]) s /\ length (s_active s) = s_M s /\ s_M s = 2 /\ s_x s = [[10; 9]; [7; 6]]%Z /\
  exists s' ob', vstep mvinner mvc (zorc 3 [0; 1]) (s, ob) = Ok (s', ob') /\
    s_x s' = [[zclip (10 - (10 - 9) + 3 + 100 * 10); 9 - 0 + 4 + 100 * 9]; [7 - (7 - 6) + 3 + 100 * 7; 6 - 0 + 4 + 100 * 6]]%Z.
Proof.
  run_vscript (vscript mvinner (reg_attr (Fin 2%Z)) mvc [[10; 9]; [7; 6]]%Z (Fin 1%Z) (Fin 1%Z) (Fin 1%Z) (Fin 1%Z) [0; 1] []).
  split. { intros v. reflexivity. }
  split; [apply zbest_one|]. split; [apply zperm_valid; reflexivity|]. split; [reflexivity|]. split; [reflexivity|]. split; [reflexivity|].
  eexists _, _. split; [vm_compute; reflexivity|]. reflexivity.
Qed.

(** dual points three times the particles; batch of one, partial update *)
Definition mvm : cfg Z Z := zcfg sqf NoCorr 1 true false [].
Lemma ex_mirror_move : exists n s y log, vexec (mirror_inner (fun v => (v - 1)%Z)) (mirror_attr (fun v => (3 * v)%Z)) mvm n (s, y) log /\
  one_consensus_point mvm /\ c_corr mvm = NoCorr /\ perms_valid (zorc 3 [1; 0]) s /\ s_x s = [[10; 9]]%Z /\ y = [[30; 27]]%Z /\
  exists s' y', vstep (mirror_inner (fun v => (v - 1)%Z)) mvm (zorc 3 [1; 0]) (s, y) = Ok (s', y') /\
    y' = [[30; 27 + 3]]%Z /\ s_x s' = [[30 - 1; 27 + 3 - 1]]%Z.
Proof.
  run_vscript (vscript (mirror_inner (fun v => (v - 1)%Z)) (mirror_attr (fun v => (3 * v)%Z)) mvm [[10; 9]]%Z (Fin 1%Z) (Fin 1%Z) (Fin 1%Z) (Fin 1%Z) [1; 0] []).
  split; [apply zbest_one|]. split; [reflexivity|]. split; [apply zperm_valid; reflexivity|]. split; [reflexivity|]. split; [reflexivity|].
  eexists _, _. split; [vm_compute; reflexivity|]. split; reflexivity.
Qed.

(** two constraints: ValueError *)
Definition mvreject := reg_inner (reg_call mvf mvreg (fun y => y)) (Some (fun _ _ _ : _ => Err ValueError)) (Fin 1%Z).
Lemma ex_reg_many : exists n s ob log, vexec mvreject (reg_attr (Fin 2%Z)) mvc n (s, ob) log /\
  penalised mvf mvreg (fun y => y) (Fin 2%Z) mvc /\ one_consensus_point mvc /\ perms_valid (zorc 3 [0; 1]) s /\
  length (s_active s) = s_M s /\ s_M s = 2 /\ s_x s = [[10; 9]; [7; 6]]%Z /\
  vstep mvreject mvc (zorc 3 [0; 1]) (s, ob) = Err ValueError.
Proof.
  run_vscript (vscript mvreject (reg_attr (Fin 2%Z)) mvc [[10; 9]; [7; 6]]%Z (Fin 1%Z) (Fin 1%Z) (Fin 1%Z) (Fin 1%Z) [0; 1] []).
  split. { intros v. reflexivity. }
  split; [apply zbest_one|]. split; [apply zperm_valid; reflexivity|]. split; [reflexivity|]. split; [reflexivity|]. split; [reflexivity|].
  vm_compute. reflexivity.
Qed.
