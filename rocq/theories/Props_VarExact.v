(** * C86: the exact moves of DriftConstrainedCBO, HyperSurfaceCBO, RegCombinationCBO and MirrorCBO *)
From Coq Require Import String List Arith Bool ZArith Permutation Lia.
From Verif Require Import Scalar Np State Pdyn PdynStep Exec Script ExZ MemSpec RegSched Variant VarSpec RegVar ExVar VarExactSpec VarExact ExVarMove.
Import ListNotations.
Open Scope nat_scope.
Open Scope list_scope.

(** C86. While all runs are active, a step of DriftConstrainedCBO moves a particle at v with the consensus point cp of its
    own run to v - w, where w solves the constraint system with right-hand side
    lamda dt (v - cp) + dt/eps grad(v) + sigma noise. *)
Theorem C86_drift_constrained : forall K V (O : KOps K) g eps (c : cfg K V) n s u log o s' u', one_consensus_point c ->
  vexec (dc_inner (Some g) eps) (fun _ => tt) c n (s, u) log -> perms_valid o s -> length (s_active s) = s_M s ->
  vstep (dc_inner (Some g) eps) c o (s, u) = Ok (s', u') ->
  forall m n v, cell (s_x s) m n = Some v -> exists cp w, own_consensus c o s m cp /\
    g_solve g (fdiv (s_dt s) eps) v
      (c_vadd c (c_vadd c (pull c s v cp) (c_vscale c (fdiv (s_dt s) eps) (g_grad g v))) (kick c s v cp (o_z o m n))) = Ok w /\
    cell (s_x s') m n = Some (c_pp c (c_vsub c v w)).
Proof. intros K V O. exact dc_move. Qed.
Print Assumptions C86_drift_constrained.

(** A second step with two runs of two particles. *)
Example C86_drift_constrained_case : exists n s u log, vexec (dc_inner (Some zmulti) (Fin 1%Z)) (fun _ : st Z Z => tt) zcv n (s, u) log /\
  one_consensus_point zcv /\ perms_valid (zorc 3 [0; 1]) s /\ length (s_active s) = s_M s /\ s_M s = 2 /\ s_x s = [[10; 9]; [7; 6]]%Z /\
  exists s' u', vstep (dc_inner (Some zmulti) (Fin 1%Z)) zcv (zorc 3 [0; 1]) (s, u) = Ok (s', u') /\
    s_x s' = [[10 - ((10 - 9) + 10 + 3); 9 - (0 + 9 + 4)]; [7 - ((7 - 6) + 7 + 3); 6 - (0 + 6 + 4)]]%Z.
Proof. exact ex_dc_move. Qed.

(** C86. HyperSurfaceCBO: v + P(v)(dt cp + sigma noise) - curvature term, projected back. *)
Theorem C86_hypersurface : forall K V (O : KOps K) S (c : cfg K V) n s u log o s' u', one_consensus_point c ->
  vexec (hyper_inner S) (fun _ => tt) c n (s, u) log -> perms_valid o s -> length (s_active s) = s_M s ->
  vstep (hyper_inner S) c o (s, u) = Ok (s', u') ->
  forall m n v, cell (s_x s) m n = Some v -> exists cp, own_consensus c o s m cp /\
    cell (s_x s') m n = Some (c_pp c (h_proj S (c_vsub c
      (c_vadd c v (h_tan S v (c_vadd c (c_vscale c (s_dt s) cp) (kick c s v cp (o_z o m n)))))
      (h_nc S (s_dt s) (s_sigma s) v (c_vsub c v cp))))).
Proof. intros K V O. exact hyper_move. Qed.
Print Assumptions C86_hypersurface.

Example C86_hypersurface_case : exists n s u log, vexec (hyper_inner mvsurf) (fun _ : st Z Z => tt) zcv n (s, u) log /\
  one_consensus_point zcv /\ perms_valid (zorc 3 [0; 1]) s /\ length (s_active s) = s_M s /\ s_M s = 2 /\ s_x s = [[10; 9]; [7; 6]]%Z /\
  exists s' u', vstep (hyper_inner mvsurf) zcv (zorc 3 [0; 1]) (s, u) = Ok (s', u') /\
    s_x s' = [[10 + 2 * (9 + 3) - (10 - 9) + 1; 9 + 2 * (9 + 4) - 0 + 1]; [7 + 2 * (6 + 3) - (7 - 6) + 1; 6 + 2 * (6 + 4) - 0 + 1]]%Z.
Proof. exact ex_hyper_move. Qed.

(** C86. RegCombinationCBO: the CBO move v - lamda dt (v - cp) + sigma noise, then the solver of the constraint when there is one. *)
Theorem C86_reg_combination : forall K V (O : KOps K) f reg pow la solve eps (c : cfg K V) n s ob log o s' ob',
  penalised f reg pow la c -> one_consensus_point c ->
  vexec (reg_inner (reg_call f reg pow) solve eps) (reg_attr la) c n (s, ob) log -> perms_valid o s ->
  1 <= s_M s -> length (s_active s) = s_M s ->
  vstep (reg_inner (reg_call f reg pow) solve eps) c o (s, ob) = Ok (s', ob') ->
  forall m n v, cell (s_x s) m n = Some v -> exists cp w, own_consensus c o s m cp /\
    (let x_tilde := c_vadd c (c_vsub c v (pull c s v cp)) (kick c s v cp (o_z o m n)) in
     match solve with Some g => g (fdiv (s_dt s) eps) v x_tilde = Ok w | None => w = x_tilde end) /\
    cell (s_x s') m n = Some (c_pp c w).
Proof. intros K V O. exact reg_move. Qed.
Print Assumptions C86_reg_combination.

Example C86_reg_combination_case : exists n s ob log, vexec mvinner (reg_attr (Fin 2%Z)) mvc n (s, ob) log /\
  penalised mvf mvreg (fun y => y) (Fin 2%Z) mvc /\
  one_consensus_point mvc /\ perms_valid (zorc 3 [0; 1]) s /\ length (s_active s) = s_M s /\ s_M s = 2 /\ s_x s = [[10; 9]; [7; 6]]%Z /\
  exists s' ob', vstep mvinner mvc (zorc 3 [0; 1]) (s, ob) = Ok (s', ob') /\
    s_x s' = [[zclip (10 - (10 - 9) + 3 + 100 * 10); 9 - 0 + 4 + 100 * 9]; [7 - (7 - 6) + 3 + 100 * 7; 6 - 0 + 4 + 100 * 6]]%Z.
Proof. exact ex_reg_move. Qed.

(** C86. With a solver that rejects every argument, as for two or more constraints (C55_multi_implicit_other), no step succeeds. *)
Theorem C86_reg_combination_many_constraints_refuted : forall K V (O : KOps K) f reg pow la g eps (c : cfg K V) n s ob log o s' ob',
  penalised f reg pow la c -> one_consensus_point c ->
  vexec (reg_inner (reg_call f reg pow) (Some g) eps) (reg_attr la) c n (s, ob) log -> perms_valid o s ->
  1 <= s_M s -> length (s_active s) = s_M s ->
  (exists m n v, cell (s_x s) m n = Some v) -> (forall fac v xt w, g fac v xt <> Ok w) ->
  vstep (reg_inner (reg_call f reg pow) (Some g) eps) c o (s, ob) <> Ok (s', ob').
Proof. intros K V O. exact reg_rejected. Qed.
Print Assumptions C86_reg_combination_many_constraints_refuted.

Example C86_reg_many_case : exists n s ob log, vexec mvreject (reg_attr (Fin 2%Z)) mvc n (s, ob) log /\
  penalised mvf mvreg (fun y => y) (Fin 2%Z) mvc /\ one_consensus_point mvc /\ perms_valid (zorc 3 [0; 1]) s /\
  length (s_active s) = s_M s /\ s_M s = 2 /\ s_x s = [[10; 9]; [7; 6]]%Z /\
  vstep mvreject mvc (zorc 3 [0; 1]) (s, ob) = Err ValueError.
Proof. exact ex_reg_many. Qed.

(** C86. MirrorCBO without correction: the dual point of a particle in the selected positions moves by
    - lamda dt (v - cp) + sigma noise, the others stay, and every particle of an active run is the image of its dual point. *)
Theorem C86_mirror : forall K V (O : KOps K) gc gr (c : cfg K V) n s y log o s' y', one_consensus_point c -> c_corr c = NoCorr ->
  vexec (mirror_inner gc) (mirror_attr gr) c n (s, y) log -> perms_valid o s ->
  vstep (mirror_inner gc) c o (s, y) = Ok (s', y') ->
  forall k m i v yv, nth_error (s_active s) k = Some m -> cell (s_x s) m i = Some v -> cell y m i = Some yv ->
    exists yv', cell y' m i = Some yv' /\ cell (s_x s') m i = Some (c_pp c (gc yv')) /\
      match last_index i (run_selp c o s m) with
      | None => yv' = yv
      | Some j => exists cp, own_consensus c o s m cp /\
          yv' = c_vadd c yv (c_vadd c (c_vscale c (fmul (fopp (s_lamda s)) (s_dt s)) (c_vsub c v cp)) (kick c s v cp (o_z o k j)))
      end.
Proof. intros K V O. exact mirror_move. Qed.
Print Assumptions C86_mirror.

(** Batches of one, partial update: only the selected particle moves in the dual space. *)
Example C86_mirror_case : exists n s y log, vexec (mirror_inner (fun v => (v - 1)%Z)) (mirror_attr (fun v => (3 * v)%Z)) mvm n (s, y) log /\
  one_consensus_point mvm /\ c_corr mvm = NoCorr /\ perms_valid (zorc 3 [1; 0]) s /\ s_x s = [[10; 9]]%Z /\ y = [[30; 27]]%Z /\
  exists s' y', vstep (mirror_inner (fun v => (v - 1)%Z)) mvm (zorc 3 [1; 0]) (s, y) = Ok (s', y') /\
    y' = [[30; 27 + 3]]%Z /\ s_x s' = [[30 - 1; 27 + 3 - 1]]%Z.
Proof. exact ex_mirror_move. Qed.
