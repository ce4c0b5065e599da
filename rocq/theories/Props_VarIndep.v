(** * C127: the runs of the variants of CBO do not influence one another *)
From Coq Require Import String List Arith Bool ZArith Permutation Lia.
From Verif Require Import Scalar Np State Pdyn Exec Script ExZ MemSpec RegSched Variant VarSpec RegVar ExVar VarExactSpec ExVarMove VarIndepSpec VarIndep Memory ExMem MemIndep ExVarIndep.
Import ListNotations.
Open Scope nat_scope.
Open Scope list_scope.

(** C127. An object constructed for run m alone holds the data of run m, its dual points and moments included. *)
Theorem C127_construction : forall K V (O : KOps K) (c : cfg K V) x0 row m chk al sg la dt perm0 perm1 names extra save s t,
  is_array (length x0) (shape1 x0) x0 -> nth_error x0 m = Some row -> perm1 0 = perm0 m ->
  init c x0 chk al sg la dt perm0 names extra save = Ok s ->
  init c [row] chk al sg la dt perm1 names extra save = Ok t ->
  twins s m t /\ s_active t = [0] /\ everything_active s /\
  (forall gr, nth_error (mirror_attr gr t) 0 = nth_error (mirror_attr gr s) m) /\
  (forall z, nth_error (fst (adam_attr z t)) 0 = nth_error (fst (adam_attr z s)) m /\ nth_error (snd (adam_attr z t)) 0 = nth_error (snd (adam_attr z s)) m).
Proof. intros K V O. exact init_twins. Qed.
Print Assumptions C127_construction.

(** C127. MirrorCBO: any number of steps with the same draws, for any active run, whatever the other runs do. *)
Theorem C127_mirror : forall K V (O : KOps K) gc gr (c : cfg K V) k m os os' n s y log n' t y' logt s1 y1 t1 y1',
  one_consensus_point c -> c_corr c = NoCorr ->
  vexec (mirror_inner gc) (mirror_attr gr) c n (s, y) log -> vexec (mirror_inner gc) (mirror_attr gr) c n' (t, y') logt ->
  nth_error (s_active s) k = Some m -> s_active t = [0] -> twins s m t -> nth_error y' 0 = nth_error y m ->
  Forall2 (same_draws k m) os os' -> Forall (fun o => perms_valid o s) os ->
  vsteps (mirror_inner gc) c os (s, y) = Ok (s1, y1) -> vsteps (mirror_inner gc) c os' (t, y') = Ok (t1, y1') ->
  twins s1 m t1 /\ nth_error y1' 0 = nth_error y1 m.
Proof. intros K V O. exact mirror_indep. Qed.
Print Assumptions C127_mirror.

(** Two runs, two steps; run 1 alone gives the same positions, which have moved. *)
Example C127_mirror_case : exists n s y log, vexec vi_mi vi_at mvm n (s, y) log /\
  exists n' t y' logt, vexec vi_mi vi_at mvm n' (t, y') logt /\
  one_consensus_point mvm /\ c_corr mvm = NoCorr /\ s_x s = [[10; 9]; [7; 6]]%Z /\ s_x t = [[7; 6]]%Z /\ nth_error y' 0 = nth_error y 1 /\
  nth_error (s_active s) 1 = Some 1 /\ s_active t = [0] /\ twins s 1 t /\ Forall2 (same_draws 1 1) vi_o vi_o /\ Forall (fun o => perms_valid o s) vi_o /\
  exists s1 y1 t1 y1', vsteps vi_mi mvm vi_o (s, y) = Ok (s1, y1) /\ vsteps vi_mi mvm vi_o (t, y') = Ok (t1, y1') /\
    nth_error (s_x s1) 1 = nth_error (s_x t1) 0 /\ s_x t1 <> s_x t.
Proof. exact ex_mirror_indep. Qed.

(** C127. AdamCBO: the same, moments included. *)
Theorem C127_adam : forall K V (O : KOps K) vsq vquot p z (c : cfg K V) k m os os' n s mo vo log n' t mo' vo' logt s1 mo1 vo1 t1 mo1' vo1',
  one_consensus_point c ->
  vexec (adam_inner vsq vquot p) (adam_attr z) c n (s, (mo, vo)) log -> vexec (adam_inner vsq vquot p) (adam_attr z) c n' (t, (mo', vo')) logt ->
  nth_error (s_active s) k = Some m -> s_active t = [0] -> twins s m t ->
  nth_error mo' 0 = nth_error mo m -> nth_error vo' 0 = nth_error vo m ->
  Forall2 (same_draws k m) os os' -> Forall (fun o => perms_valid o s) os ->
  vsteps (adam_inner vsq vquot p) c os (s, (mo, vo)) = Ok (s1, (mo1, vo1)) ->
  vsteps (adam_inner vsq vquot p) c os' (t, (mo', vo')) = Ok (t1, (mo1', vo1')) ->
  twins s1 m t1 /\ nth_error mo1' 0 = nth_error mo1 m /\ nth_error vo1' 0 = nth_error vo1 m.
Proof. intros K V O. exact adam_indep. Qed.
Print Assumptions C127_adam.

(** Two runs, two steps; run 1 alone gives the same positions, which have moved. *)
Example C127_adam_case : exists n s mv log, vexec vi_ad vi_aa mvm n (s, mv) log /\
  exists n' t mv' logt, vexec vi_ad vi_aa mvm n' (t, mv') logt /\
  one_consensus_point mvm /\ s_x s = [[10; 9]; [7; 6]]%Z /\ s_x t = [[7; 6]]%Z /\
  nth_error (fst mv') 0 = nth_error (fst mv) 1 /\ nth_error (snd mv') 0 = nth_error (snd mv) 1 /\
  nth_error (s_active s) 1 = Some 1 /\ s_active t = [0] /\ twins s 1 t /\ Forall2 (same_draws 1 1) vi_o vi_o /\ Forall (fun o => perms_valid o s) vi_o /\
  exists s1 mv1 t1 mv1', vsteps vi_ad mvm vi_o (s, mv) = Ok (s1, mv1) /\ vsteps vi_ad mvm vi_o (t, mv') = Ok (t1, mv1') /\
    nth_error (s_x s1) 1 = nth_error (s_x t1) 0 /\ s_x t1 <> s_x t.
Proof. exact ex_adam_indep. Qed.

(** C127. DriftConstrainedCBO: the same while all runs are active (C45: otherwise it raises or mixes the runs). *)
Theorem C127_drift_constrained : forall K V (O : KOps K) g eps (c : cfg K V) m os os' n s u log n' t u' logt s1 u1 t1 u1', one_consensus_point c ->
  vexec (dc_inner (Some g) eps) (fun _ => tt) c n (s, u) log -> vexec (dc_inner (Some g) eps) (fun _ => tt) c n' (t, u') logt ->
  everything_active s -> s_active t = [0] -> twins s m t ->
  Forall2 (same_draws m m) os os' -> Forall (fun o => perms_valid o s) os ->
  vsteps (dc_inner (Some g) eps) c os (s, u) = Ok (s1, u1) -> vsteps (dc_inner (Some g) eps) c os' (t, u') = Ok (t1, u1') ->
  twins s1 m t1.
Proof. intros K V O. exact dc_indep. Qed.
Print Assumptions C127_drift_constrained.

(** Two runs, two steps; run 1 alone gives the same positions, which have moved. *)
Example C127_drift_constrained_case : exists n s u log, vexec vi_dc (fun _ : st Z Z => tt) zcv n (s, u) log /\
  exists n' t u' logt, vexec vi_dc (fun _ : st Z Z => tt) zcv n' (t, u') logt /\
  one_consensus_point zcv /\ s_x s = [[10; 9]; [7; 6]]%Z /\ s_x t = [[7; 6]]%Z /\
  everything_active s /\ s_active t = [0] /\ twins s 1 t /\ Forall2 (same_draws 1 1) vi_o vi_o /\ Forall (fun o => perms_valid o s) vi_o /\
  exists s1 u1 t1 u1', vsteps vi_dc zcv vi_o (s, u) = Ok (s1, u1) /\ vsteps vi_dc zcv vi_o (t, u') = Ok (t1, u1') /\
    nth_error (s_x s1) 1 = nth_error (s_x t1) 0 /\ s_x t1 <> s_x t.
Proof. exact ex_dc_indep. Qed.

(** C127. HyperSurfaceCBO: the same while all runs are active. *)
Theorem C127_hypersurface : forall K V (O : KOps K) S (c : cfg K V) m os os' n s u log n' t u' logt s1 u1 t1 u1', one_consensus_point c ->
  vexec (hyper_inner S) (fun _ => tt) c n (s, u) log -> vexec (hyper_inner S) (fun _ => tt) c n' (t, u') logt ->
  everything_active s -> s_active t = [0] -> twins s m t ->
  Forall2 (same_draws m m) os os' -> Forall (fun o => perms_valid o s) os ->
  vsteps (hyper_inner S) c os (s, u) = Ok (s1, u1) -> vsteps (hyper_inner S) c os' (t, u') = Ok (t1, u1') ->
  twins s1 m t1.
Proof. intros K V O. exact hyper_indep. Qed.
Print Assumptions C127_hypersurface.

(** Two runs, two steps; run 1 alone gives the same positions, which have moved. *)
Example C127_hypersurface_case : exists n s u log, vexec vi_hy (fun _ : st Z Z => tt) zcv n (s, u) log /\
  exists n' t u' logt, vexec vi_hy (fun _ : st Z Z => tt) zcv n' (t, u') logt /\
  one_consensus_point zcv /\ s_x s = [[10; 9]; [7; 6]]%Z /\ s_x t = [[7; 6]]%Z /\
  everything_active s /\ s_active t = [0] /\ twins s 1 t /\ Forall2 (same_draws 1 1) vi_o vi_o /\ Forall (fun o => perms_valid o s) vi_o /\
  exists s1 u1 t1 u1', vsteps vi_hy zcv vi_o (s, u) = Ok (s1, u1) /\ vsteps vi_hy zcv vi_o (t, u') = Ok (t1, u1') /\
    nth_error (s_x s1) 1 = nth_error (s_x t1) 0 /\ s_x t1 <> s_x t.
Proof. exact ex_hyper_indep. Qed.

(** C127. RegCombinationCBO: the same while all runs are active, with a fixed penalty parameter. *)
Theorem C127_reg_combination : forall K V (O : KOps K) f reg pow la solve eps (c : cfg K V) m os os' n s ob log n' t ob' logt s1 ob1 t1 ob1',
  penalised f reg pow la c -> one_consensus_point c ->
  vexec (reg_inner (reg_call f reg pow) solve eps) (reg_attr la) c n (s, ob) log ->
  vexec (reg_inner (reg_call f reg pow) solve eps) (reg_attr la) c n' (t, ob') logt ->
  everything_active s -> s_active t = [0] -> twins s m t ->
  Forall2 (same_draws m m) os os' -> Forall (fun o => perms_valid o s) os ->
  vsteps (reg_inner (reg_call f reg pow) solve eps) c os (s, ob) = Ok (s1, ob1) ->
  vsteps (reg_inner (reg_call f reg pow) solve eps) c os' (t, ob') = Ok (t1, ob1') ->
  twins s1 m t1.
Proof. intros K V O. exact reg_indep. Qed.
Print Assumptions C127_reg_combination.

(** Two runs, two steps; run 1 alone gives the same positions, which have moved. *)
Example C127_reg_combination_case : exists n s ob log, vexec mvinner (reg_attr (Fin 2%Z)) mvc n (s, ob) log /\
  exists n' t ob' logt, vexec mvinner (reg_attr (Fin 2%Z)) mvc n' (t, ob') logt /\
  penalised mvf mvreg (fun y => y) (Fin 2%Z) mvc /\
  one_consensus_point mvc /\ s_x s = [[10; 9]; [7; 6]]%Z /\ s_x t = [[7; 6]]%Z /\
  everything_active s /\ s_active t = [0] /\ twins s 1 t /\ Forall2 (same_draws 1 1) vi_o vi_o /\ Forall (fun o => perms_valid o s) vi_o /\
  exists s1 ob1 t1 ob1', vsteps mvinner mvc vi_o (s, ob) = Ok (s1, ob1) /\ vsteps mvinner mvc vi_o (t, ob') = Ok (t1, ob1') /\
    nth_error (s_x s1) 1 = nth_error (s_x t1) 0 /\ s_x t1 <> s_x t.
Proof. exact ex_reg_indep. Qed.

Example C127_construction_case : exists s t, init zcv [[10; 9]; [7; 6]]%Z false (Fin 1%Z) (Fin 1%Z) (Fin 1%Z) (Fin 1%Z) (fun _ => [0; 1]) None [] None = Ok s /\
  init zcv [[7; 6]]%Z false (Fin 1%Z) (Fin 1%Z) (Fin 1%Z) (Fin 1%Z) (fun _ => [0; 1]) None [] None = Ok t /\ is_array 2 2 [[10; 9]; [7; 6]]%Z.
Proof. eexists _, _. split; [vm_compute; reflexivity|]. split; [vm_compute; reflexivity|]. repeat constructor. Qed.

(** C127. CBOMemory and PSO with full batches: construction and any number of steps that do not raise
    (C44: they raise as soon as one of several runs has terminated). *)
Theorem C127_memory_construction : forall K V (O : KOps K) (c : cfg K V) x0 row m chk al sg la dt perm0 perm1 names extra save ms mt,
  is_array (length x0) (shape1 x0) x0 -> nth_error x0 m = Some row -> perm1 0 = perm0 m ->
  mem_init c x0 chk al sg la dt perm0 names extra save = Ok ms ->
  mem_init c [row] chk al sg la dt perm1 names extra save = Ok mt ->
  mtwins ms m mt /\ s_active (m_s mt) = [0] /\ length (s_active (m_s ms)) = s_M (m_s ms).
Proof. intros K V O. exact mem_init_twins. Qed.
Print Assumptions C127_memory_construction.

Theorem C127_memory : forall K V (O : KOps K) k (c : cfg K V) m l l' ms log mt logt ms1 mt1, c_corr c = NoCorr -> one_consensus_point c ->
  mem_exec k c ms log -> mem_exec k c mt logt -> c_bsize c = s_N (m_s ms) ->
  s_active (m_s ms) <> [] -> s_active (m_s mt) <> [] -> mtwins ms m mt ->
  Forall2 (same_mem_draws m) l l' -> Forall (fun a => perms_valid (snd (fst a)) (m_s ms)) l ->
  msteps k c l ms = Ok ms1 -> msteps k c l' mt = Ok mt1 ->
  mtwins ms1 m mt1.
Proof. intros K V O. exact mem_indep. Qed.
Print Assumptions C127_memory.

(** Two runs, two steps, both dynamics. *)
Example C127_memory_case : forall k, exists ms log, mem_exec k zcm ms log /\ exists mt logt, mem_exec k zcm mt logt /\
  one_consensus_point zcm /\ c_corr zcm = NoCorr /\ c_bsize zcm = s_N (m_s ms) /\ s_x (m_s ms) = [[27; -14]; [3; 2]]%Z /\ s_x (m_s mt) = [[3; 2]]%Z /\
  s_active (m_s ms) <> [] /\ s_active (m_s mt) <> [] /\ mtwins ms 1 mt /\ Forall2 (same_mem_draws 1) vi_m vi_m /\
  Forall (fun a => perms_valid (snd (fst a)) (m_s ms)) vi_m /\
  exists ms1 mt1, msteps k zcm vi_m ms = Ok ms1 /\ msteps k zcm vi_m mt = Ok mt1 /\
    nth_error (s_x (m_s ms1)) 1 = nth_error (s_x (m_s mt1)) 0 /\ s_x (m_s mt1) <> s_x (m_s mt).
Proof. exact ex_mem_indep. Qed.
