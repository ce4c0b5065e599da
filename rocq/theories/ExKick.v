(** * Concrete executions with independent noise *)
From Coq Require Import String List Arith Bool ZArith Permutation Lia.
From Verif Require Import Scalar Np State Pdyn Exec Script ExZ ExVar Variant VarSpec KickNoise KickSpec KickFacts KickStep.
Import ListNotations.
Open Scope nat_scope.
Open Scope list_scope.

(** run 1 stops after the first step *)
Definition kcf : cfg Z Z := zcfg sqf NoCorr 2 false false [CCustom (fun s => map (fun m => (m =? 1) && (1 <=? s_it s)) (seq 0 (s_M s)))].
(** one-dimensional, eps_indep = 1, sigma_indep = 1; sigma*sqrt(dt)*z for dt = 0 or 1 *)
Definition kkp : kpar Z Z := mkkpar (Fin 1%Z) (Fin 1%Z) 1 (fun v => Fin (v * v)%Z) (fun sg dt z => zscale sg (zscale dt z)).
(** draws: -3 for particle 0, 5 for particle 1 *)
Definition kzs (k i j n : nat) : Z := match n with 0 => (-3)%Z | _ => 5%Z end.
Definition kin (fuel : nat) := dck_inner fuel kkp kzs None (Fin 1%Z).

Lemma k_best_lost : exists n s k log o s' k' cp, vexec (kin 3) (fun _ => 0) kcf n (s, k) log /\ perms_valid o s /\ s_active s <> [] /\ s_cons s = Some cp /\
  vstep (kin 3) kcf o (s, k) = Ok (s', k') /\ c_bsize kcf = s_N s /\ collapsed kkp kcf cp (s_x s) 0 /\ s_be s' = [Fin 0%Z] /\ s_bp s' = [3%Z] /\ c_f kcf 3%Z = Fin 9%Z.
Proof.
  assert (exists n s k log, vexec (kin 3) (fun _ => 0) kcf n (s, k) log /\ exists o s' k' cp, perms_valid o s /\ s_active s <> [] /\ s_cons s = Some cp /\
  vstep (kin 3) kcf o (s, k) = Ok (s', k') /\ c_bsize kcf = s_N s /\ collapsed kkp kcf cp (s_x s) 0 /\ s_be s' = [Fin 0%Z] /\ s_bp s' = [3%Z] /\ c_f kcf 3%Z = Fin 9%Z) as H.
  { run_vscript (vscript (kin 3) (fun _ => 0) kcf [[3; 3]]%Z (Fin 1%Z) (Fin 0%Z) (Fin 1%Z) (Fin 1%Z) [0; 1] [ATerm; AStep (zorc 0 [0; 1]); ATerm]).
    exists (zorc 0 [0; 1]). eexists _, _, _. split; [apply zperm_valid; reflexivity|]. split; [discriminate|]. split; [reflexivity|].
    split; [vm_compute; reflexivity|]. split; [reflexivity|]. split; [|auto]. exists [3; 3]%Z, 3%Z. auto. }
  destruct H as (n & s & k & log & HE & o & s' & k' & cp & H). exists n, s, k, log, o, s', k', cp. tauto.
Qed.

Lemma k_frozen_moves : exists n s k log o s' k', vexec (kin 3) (fun _ => 0) kcf n (s, k) log /\ perms_valid o s /\ s_active s = [0] /\ s_M s = 2 /\
  vstep (kin 3) kcf o (s, k) = Ok (s', k') /\ nth_error (s_x s) 1 = Some [5; 5]%Z /\ nth_error (s_x s') 1 = Some [2; 10]%Z.
Proof.
  assert (exists n s k log, vexec (kin 3) (fun _ => 0) kcf n (s, k) log /\ exists o s' k', perms_valid o s /\ s_active s = [0] /\ s_M s = 2 /\
  vstep (kin 3) kcf o (s, k) = Ok (s', k') /\ nth_error (s_x s) 1 = Some [5; 5]%Z /\ nth_error (s_x s') 1 = Some [2; 10]%Z) as H.
  { run_vscript (vscript (kin 3) (fun _ => 0) kcf [[3; 3]; [5; 5]]%Z (Fin 1%Z) (Fin 0%Z) (Fin 1%Z) (Fin 1%Z) [0; 1] [ATerm; AStep (zorc 0 [0; 1]); ATerm]).
    exists (zorc 0 [0; 1]). eexists _, _. split; [apply zperm_valid; reflexivity|]. split; [reflexivity|]. split; [reflexivity|].
    split; [vm_compute; reflexivity|]. split; reflexivity. }
  destruct H as (n & s & k & log & HE & o & s' & k' & H). exists n, s, k, log, o, s', k'. tauto.
Qed.

(** dt = 0 *)
Lemma k_never : exists n s k log o s0 cp, vexec (kin 3) (fun _ => 0) kcf n (s, k) log /\ pre_step kcf o s = Ok s0 /\ s_cons s = Some cp /\
  collapsed kkp kcf cp (s_x s) 0 /\ s_active s = [0] /\ (forall v w, c_vadd kcf v (k_inc kkp (k_sig kkp) (s_dt s) w) = v).
Proof.
  assert (exists n s k log, vexec (kin 3) (fun _ => 0) kcf n (s, k) log /\ exists o s0 cp, pre_step kcf o s = Ok s0 /\ s_cons s = Some cp /\
  collapsed kkp kcf cp (s_x s) 0 /\ s_active s = [0] /\ (forall v w, c_vadd kcf v (k_inc kkp (k_sig kkp) (s_dt s) w) = v)) as H.
  { run_vscript (vscript (kin 3) (fun _ => 0) kcf [[3; 3]]%Z (Fin 1%Z) (Fin 0%Z) (Fin 1%Z) (Fin 0%Z) [0; 1] [ATerm; AStep (zorc 0 [0; 1]); ATerm]).
    exists (zorc 0 [0; 1]). eexists _, _. split; [vm_compute; reflexivity|]. split; [reflexivity|].
    split; [exists [3; 3]%Z, 3%Z; auto|]. split; [reflexivity|]. intros v w. cbn. lia. }
  destruct H as (n & s & k & log & HE & o & s0 & cp & H). exists n, s, k, log, o, s0, cp. tauto.
Qed.
