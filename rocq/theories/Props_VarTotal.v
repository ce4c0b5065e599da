(** * Properties: sessions of the variants of CBO that cannot fail (C115) *)
From Coq Require Import String List Arith Bool Reals Lia Lra.
From Verif Require Import Scalar Np State Pdyn Exec TermSpec RVec Cbo CboSpec RegSched Variant VarSpec RegVar SessSpec VarSessSpec VarTotalSpec VarTotal VarTotalSess ExCbo ExMemSym ExCoord ExVarSym ExVarTotal.
Import ListNotations.
Open Scope nat_scope.
Open Scope list_scope.

(** C115. Whatever sequence of steps, termination checks, parameter changes and resets is made, with any number of runs in any state of activity, and whatever the mirror map,
    objective, noise and post-processing return: a session of MirrorCBO without correction term raises no exception. *)
Theorem C115_mirror : forall K V (O : KOps K) (c : cfg K V) x0 checked alpha sigma lamda dt perm0 names extra save l,
  Forall builtin (c_crit c) -> one_consensus_point c -> good_construction c x0 perm0 save ->
  forall gc gr, c_corr c = NoCorr -> valid_calls (fun _ => True) (length x0) (shape1 x0) l ->
  exists r, var_session (mirror_inner gc) (mirror_attr gr) c x0 checked alpha sigma lamda dt perm0 names extra save l = Ok r.
Proof. intros; apply mirror_never_fails; auto. Qed.
Print Assumptions C115_mirror.
Example C115_mirror_example : forall f k n, Forall builtin (c_crit (bcfg f k scrit)) /\ one_consensus_point (bcfg f k scrit) /\ c_corr (bcfg f k scrit) = NoCorr /\
  good_construction (bcfg f k scrit) cx0 (fun _ => [2; 0; 1]) None /\ valid_calls (fun _ => True) (length cx0) (shape1 cx0) (tcalls n) /\ length cx0 = 2.
Proof. exact ex_any. Qed.

(** C115. The same for AdamCBO. *)
Theorem C115_adam : forall K V (O : KOps K) (c : cfg K V) x0 checked alpha sigma lamda dt perm0 names extra save l,
  Forall builtin (c_crit c) -> one_consensus_point c -> good_construction c x0 perm0 save ->
  forall vsq vquot p z, valid_calls (fun _ => True) (length x0) (shape1 x0) l ->
  exists r, var_session (adam_inner vsq vquot p) (adam_attr z) c x0 checked alpha sigma lamda dt perm0 names extra save l = Ok r.
Proof. intros; apply adam_never_fails; auto. Qed.
Print Assumptions C115_adam.

(** C115. With one run (or while no termination check is made) sessions of HyperSurfaceCBO raise no exception. *)
Theorem C115_hyper : forall K V (O : KOps K) (c : cfg K V) x0 checked alpha sigma lamda dt perm0 names extra save l,
  Forall builtin (c_crit c) -> one_consensus_point c -> good_construction c x0 perm0 save -> length x0 = 1 \/ no_checks l ->
  forall S, valid_calls (fun _ => True) (length x0) (shape1 x0) l ->
  exists r, var_session (hyper_inner S) (fun _ => tt) c x0 checked alpha sigma lamda dt perm0 names extra save l = Ok r.
Proof. intros; apply hyper_never_fails; auto. Qed.
Print Assumptions C115_hyper.

(** C115. With one run (or while no termination check is made) sessions of DriftConstrainedCBO raise no exception, provided the linear systems can be solved for the values of dt in use. *)
Theorem C115_drift_constrained : forall K V (O : KOps K) (c : cfg K V) x0 checked alpha sigma lamda dt perm0 names extra save l,
  Forall builtin (c_crit c) -> one_consensus_point c -> good_construction c x0 perm0 save -> length x0 = 1 \/ no_checks l ->
  forall G eps (T : fl K -> Prop), (forall g, G = Some g -> forall t x y, T t -> exists w, g_solve g (fdiv t eps) x y = Ok w) -> T dt -> valid_calls T (length x0) (shape1 x0) l ->
  exists r, var_session (dc_inner G eps) (fun _ => tt) c x0 checked alpha sigma lamda dt perm0 names extra save l = Ok r.
Proof. intros; eapply dc_never_fails; eauto. Qed.
Print Assumptions C115_drift_constrained.
Example C115_one_run_example : forall f k n, Forall builtin (c_crit (bcfg f k scrit)) /\ one_consensus_point (bcfg f k scrit) /\
  good_construction (bcfg f k scrit) one_run (fun _ => [2; 0; 1]) None /\ length one_run = 1 /\ positive (Fin (/ 10)%R) /\ valid_calls positive (length one_run) (shape1 one_run) (tcalls n) /\
  (forall t x y, positive t -> exists w, g_solve (line 0 0) (fdiv t (Fin (/ 10)%R)) x y = Ok w).
Proof. exact ex_one. Qed.
Example C115_unchecked_example : forall n, no_checks (ucalls n) /\ valid_calls positive (length cx0) (shape1 cx0) (ucalls n).
Proof. exact ex_unchecked. Qed.

(** C115. The same for RegCombinationCBO. *)
Theorem C115_reg_combination : forall K V (O : KOps K) (c : cfg K V) x0 checked alpha sigma lamda dt perm0 names extra save l,
  Forall builtin (c_crit c) -> one_consensus_point c -> good_construction c x0 perm0 save -> length x0 = 1 \/ no_checks l ->
  forall f reg pow la solve eps (T : fl K -> Prop), penalised f reg pow la c -> (forall g, solve = Some g -> forall t x y, T t -> exists w, g (fdiv t eps) x y = Ok w) ->
  T dt -> valid_calls T (length x0) (shape1 x0) l -> 1 <= length x0 ->
  exists r, var_session (reg_inner (reg_call f reg pow) solve eps) (reg_attr la) c x0 checked alpha sigma lamda dt perm0 names extra save l = Ok r.
Proof. intros; eapply reg_never_fails; eauto. Qed.
Print Assumptions C115_reg_combination.
Example C115_reg_example : penalised (K := R) sqf sqf psq (Fin 2%R) (bcfg (pen sqf) NAniso scrit) /\ forall t x y, positive t -> exists w, mid (fdiv t (Fin (/ 10)%R)) x y = Ok w.
Proof. split; [intros v; reflexivity|]. intros. unfold mid. eauto. Qed.
