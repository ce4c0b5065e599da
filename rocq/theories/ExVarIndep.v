(** * Concrete runs of the variants in an array and alone *)
From Coq Require Import String List Arith Bool ZArith Permutation Lia.
From Verif Require Import Scalar Np State Pdyn Exec Script ExZ ExVar RegSched RegVar Variant VarSpec ExVarMove VarIndepSpec Memory MemSpec ExMem.
Import ListNotations.
Open Scope nat_scope.
Open Scope list_scope.

Definition vi_o : list (orc Z) := [zorc 3 [0; 1]; zorc (-5) [1; 0]].

Ltac vi_tail :=
  split; [reflexivity|]; split; [reflexivity|]; split; [constructor; cbn; auto with arith|];
  split; [repeat constructor|]; split; [repeat (constructor; [apply zperm_valid; reflexivity|]); constructor|];
  eexists _, _, _, _; split; [vm_compute; reflexivity|]; split; [vm_compute; reflexivity|].

Definition vi_dc := dc_inner (Some zmulti) (Fin 1%Z).
Lemma ex_dc_indep : exists n s u log, vexec vi_dc (fun _ : st Z Z => tt) zcv n (s, u) log /\
  exists n' t u' logt, vexec vi_dc (fun _ : st Z Z => tt) zcv n' (t, u') logt /\
  one_consensus_point zcv /\ s_x s = [[10; 9]; [7; 6]]%Z /\ s_x t = [[7; 6]]%Z /\
  everything_active s /\ s_active t = [0] /\ twins s 1 t /\ Forall2 (same_draws 1 1) vi_o vi_o /\ Forall (fun o => perms_valid o s) vi_o /\
  exists s1 u1 t1 u1', vsteps vi_dc zcv vi_o (s, u) = Ok (s1, u1) /\ vsteps vi_dc zcv vi_o (t, u') = Ok (t1, u1') /\
    nth_error (s_x s1) 1 = nth_error (s_x t1) 0 /\ s_x t1 <> s_x t.
Proof.
  run_vscript (vscript vi_dc (fun _ : st Z Z => tt) zcv [[10; 9]; [7; 6]]%Z (Fin 1%Z) (Fin 1%Z) (Fin 1%Z) (Fin 1%Z) [0; 1] []).
  run_vscript (vscript vi_dc (fun _ : st Z Z => tt) zcv [[7; 6]]%Z (Fin 1%Z) (Fin 1%Z) (Fin 1%Z) (Fin 1%Z) [0; 1] []).
  split; [apply zbest_one|]. split; [reflexivity|]. split; [reflexivity|]. vi_tail. split; [reflexivity|discriminate].
Qed.

Definition vi_hy := hyper_inner mvsurf.
Lemma ex_hyper_indep : exists n s u log, vexec vi_hy (fun _ : st Z Z => tt) zcv n (s, u) log /\
  exists n' t u' logt, vexec vi_hy (fun _ : st Z Z => tt) zcv n' (t, u') logt /\
  one_consensus_point zcv /\ s_x s = [[10; 9]; [7; 6]]%Z /\ s_x t = [[7; 6]]%Z /\
  everything_active s /\ s_active t = [0] /\ twins s 1 t /\ Forall2 (same_draws 1 1) vi_o vi_o /\ Forall (fun o => perms_valid o s) vi_o /\
  exists s1 u1 t1 u1', vsteps vi_hy zcv vi_o (s, u) = Ok (s1, u1) /\ vsteps vi_hy zcv vi_o (t, u') = Ok (t1, u1') /\
    nth_error (s_x s1) 1 = nth_error (s_x t1) 0 /\ s_x t1 <> s_x t.
Proof.
  run_vscript (vscript vi_hy (fun _ : st Z Z => tt) zcv [[10; 9]; [7; 6]]%Z (Fin 1%Z) (Fin 1%Z) (Fin 1%Z) (Fin 1%Z) [0; 1] []).
  run_vscript (vscript vi_hy (fun _ : st Z Z => tt) zcv [[7; 6]]%Z (Fin 1%Z) (Fin 1%Z) (Fin 1%Z) (Fin 1%Z) [0; 1] []).
  split; [apply zbest_one|]. split; [reflexivity|]. split; [reflexivity|]. vi_tail. split; [reflexivity|discriminate].
Qed.

Lemma ex_reg_indep : exists n s ob log, vexec mvinner (reg_attr (Fin 2%Z)) mvc n (s, ob) log /\
  exists n' t ob' logt, vexec mvinner (reg_attr (Fin 2%Z)) mvc n' (t, ob') logt /\
  penalised mvf mvreg (fun y => y) (Fin 2%Z) mvc /\
  one_consensus_point mvc /\ s_x s = [[10; 9]; [7; 6]]%Z /\ s_x t = [[7; 6]]%Z /\
  everything_active s /\ s_active t = [0] /\ twins s 1 t /\ Forall2 (same_draws 1 1) vi_o vi_o /\ Forall (fun o => perms_valid o s) vi_o /\
  exists s1 ob1 t1 ob1', vsteps mvinner mvc vi_o (s, ob) = Ok (s1, ob1) /\ vsteps mvinner mvc vi_o (t, ob') = Ok (t1, ob1') /\
    nth_error (s_x s1) 1 = nth_error (s_x t1) 0 /\ s_x t1 <> s_x t.
Proof.
  run_vscript (vscript mvinner (reg_attr (Fin 2%Z)) mvc [[10; 9]; [7; 6]]%Z (Fin 1%Z) (Fin 1%Z) (Fin 1%Z) (Fin 1%Z) [0; 1] []).
  run_vscript (vscript mvinner (reg_attr (Fin 2%Z)) mvc [[7; 6]]%Z (Fin 1%Z) (Fin 1%Z) (Fin 1%Z) (Fin 1%Z) [0; 1] []).
  split. { intros v. reflexivity. }
  split; [apply zbest_one|]. split; [reflexivity|]. split; [reflexivity|]. vi_tail. split; [reflexivity|discriminate].
Qed.

(** batches of one *)
Definition vi_mi := mirror_inner (K := Z) (fun v => (v - 1)%Z).
Definition vi_at := mirror_attr (K := Z) (fun v => (3 * v)%Z).
Lemma ex_mirror_indep : exists n s y log, vexec vi_mi vi_at mvm n (s, y) log /\
  exists n' t y' logt, vexec vi_mi vi_at mvm n' (t, y') logt /\
  one_consensus_point mvm /\ c_corr mvm = NoCorr /\ s_x s = [[10; 9]; [7; 6]]%Z /\ s_x t = [[7; 6]]%Z /\ nth_error y' 0 = nth_error y 1 /\
  nth_error (s_active s) 1 = Some 1 /\ s_active t = [0] /\ twins s 1 t /\ Forall2 (same_draws 1 1) vi_o vi_o /\ Forall (fun o => perms_valid o s) vi_o /\
  exists s1 y1 t1 y1', vsteps vi_mi mvm vi_o (s, y) = Ok (s1, y1) /\ vsteps vi_mi mvm vi_o (t, y') = Ok (t1, y1') /\
    nth_error (s_x s1) 1 = nth_error (s_x t1) 0 /\ s_x t1 <> s_x t.
Proof.
  run_vscript (vscript vi_mi vi_at mvm [[10; 9]; [7; 6]]%Z (Fin 1%Z) (Fin 1%Z) (Fin 1%Z) (Fin 1%Z) [1; 0] []).
  run_vscript (vscript vi_mi vi_at mvm [[7; 6]]%Z (Fin 1%Z) (Fin 1%Z) (Fin 1%Z) (Fin 1%Z) [1; 0] []).
  split; [apply zbest_one|]. split; [reflexivity|]. split; [reflexivity|]. split; [reflexivity|]. split; [reflexivity|]. vi_tail. split; [reflexivity|discriminate].
Qed.

(** batches of one; the quotient of the moments is replaced by their sum *)
Definition vi_ad := adam_inner (K := Z) (fun v => (v * v)%Z) (fun _ m v => (m + v)%Z) (mkapar (Fin 0%Z) (Fin 0%Z) (Fin 1%Z)).
Definition vi_aa := adam_attr (K := Z) 0%Z.
Lemma ex_adam_indep : exists n s mv log, vexec vi_ad vi_aa mvm n (s, mv) log /\
  exists n' t mv' logt, vexec vi_ad vi_aa mvm n' (t, mv') logt /\
  one_consensus_point mvm /\ s_x s = [[10; 9]; [7; 6]]%Z /\ s_x t = [[7; 6]]%Z /\
  nth_error (fst mv') 0 = nth_error (fst mv) 1 /\ nth_error (snd mv') 0 = nth_error (snd mv) 1 /\
  nth_error (s_active s) 1 = Some 1 /\ s_active t = [0] /\ twins s 1 t /\ Forall2 (same_draws 1 1) vi_o vi_o /\ Forall (fun o => perms_valid o s) vi_o /\
  exists s1 mv1 t1 mv1', vsteps vi_ad mvm vi_o (s, mv) = Ok (s1, mv1) /\ vsteps vi_ad mvm vi_o (t, mv') = Ok (t1, mv1') /\
    nth_error (s_x s1) 1 = nth_error (s_x t1) 0 /\ s_x t1 <> s_x t.
Proof.
  run_vscript (vscript vi_ad vi_aa mvm [[10; 9]; [7; 6]]%Z (Fin 1%Z) (Fin 1%Z) (Fin 1%Z) (Fin 1%Z) [1; 0] []).
  run_vscript (vscript vi_ad vi_aa mvm [[7; 6]]%Z (Fin 1%Z) (Fin 1%Z) (Fin 1%Z) (Fin 1%Z) [1; 0] []).
  split; [apply zbest_one|]. split; [reflexivity|]. split; [reflexivity|]. split; [reflexivity|]. split; [reflexivity|]. vi_tail. split; [reflexivity|discriminate].
Qed.

(** CBOMemory and PSO, full batches *)
Definition vi_m : list (minput (K := Z) (V := Z)) := [(mpar1, zorc 3 [0; 1], fun _ n => (Z.of_nat n - 4)%Z); (mpar1, zorc (-5) [1; 0], fun _ n => (2 - Z.of_nat n)%Z)].
Lemma ex_mem_indep : forall k, exists ms log, mem_exec k zcm ms log /\ exists mt logt, mem_exec k zcm mt logt /\ one_consensus_point zcm /\ c_corr zcm = NoCorr /\ c_bsize zcm = s_N (m_s ms) /\ s_x (m_s ms) = [[27; -14]; [3; 2]]%Z /\ s_x (m_s mt) = [[3; 2]]%Z /\ s_active (m_s ms) <> [] /\ s_active (m_s mt) <> [] /\ mtwins ms 1 mt /\ Forall2 (same_mem_draws 1) vi_m vi_m /\ Forall (fun a => perms_valid (snd (fst a)) (m_s ms)) vi_m /\ exists ms1 mt1, msteps k zcm vi_m ms = Ok ms1 /\ msteps k zcm vi_m mt = Ok mt1 /\ nth_error (s_x (m_s ms1)) 1 = nth_error (s_x (m_s mt1)) 0 /\ s_x (m_s mt1) <> s_x (m_s mt).
Proof.
  intros k.
  assert (OC : one_consensus_point zcm) by apply zbest_one.
  destruct k;
  [run_mscript (zmscript CBOMem []); run_mscript (mscript CBOMem zcm mpar1 [[3; 2]]%Z (Fin 1%Z) (Fin 1%Z) (Fin 1%Z) (Fin 1%Z) [0; 1] [])
  |run_mscript (zmscript Pso []); run_mscript (mscript Pso zcm mpar1 [[3; 2]]%Z (Fin 1%Z) (Fin 1%Z) (Fin 1%Z) (Fin 1%Z) [0; 1] [])];
  (split; [exact OC|]; split; [reflexivity|]; split; [reflexivity|]; split; [reflexivity|]; split; [reflexivity|]; split; [discriminate|]; split; [discriminate|];
   split; [constructor; cbn; auto with arith|]; split; [repeat constructor|];
   split; [repeat (constructor; [apply zperm_valid; reflexivity|]); constructor|];
   eexists _, _; split; [vm_compute; reflexivity|]; split; [vm_compute; reflexivity|]; split; [reflexivity|discriminate]).
Qed.
