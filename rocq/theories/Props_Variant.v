(** * C45, C46, C48, C52, C76: AdamCBO, MirrorCBO, DriftConstrainedCBO, HyperSurfaceCBO, RegCombinationCBO *)
From Coq Require Import String List Arith Bool Reals Lra Lia ZArith Permutation.
From Verif Require Import Scalar Np State Pdyn Exec RVec ConsSpec Cbo CboSpec PdynFacts Script ExZ MemSpec RegSched Variant VarSpec VarFacts VarMove RegVar
  AdamSpec AdamFacts AdamR ExVar ExAdam.
Import ListNotations.
Open Scope nat_scope.
Open Scope list_scope.

(** ** C45 *)

(** C45. With 1 < A < M active runs every step of DriftConstrainedCBO raises. *)
Theorem C45_drift_constrained_raises : forall K V (O : KOps K) G eps (c : cfg K V) n s u log o, vexec (dc_inner G eps) (fun _ => tt) c n (s, u) log ->
  perms_valid o s -> 1 < length (s_active s) < s_M s -> vstep (dc_inner G eps) c o (s, u) = Err ShapeError.
Proof. intros K V O. exact dc_partial_raises. Qed.
Print Assumptions C45_drift_constrained_raises.

Theorem C45_hypersurface_raises : forall K V (O : KOps K) S (c : cfg K V) n s u log o, one_consensus_point c ->
  vexec (hyper_inner S) (fun _ => tt) c n (s, u) log ->
  perms_valid o s -> 1 < length (s_active s) < s_M s -> vstep (hyper_inner S) c o (s, u) = Err ShapeError.
Proof. intros K V O. exact hyper_partial_raises. Qed.
Print Assumptions C45_hypersurface_raises.

(** C45. With exactly one active run [m0] its consensus enters the move of every particle of every run. *)
Theorem C45_drift_constrained_moves_all_refuted : forall K V (O : KOps K) g eps (c : cfg K V) n s u log o s' u' m0, one_consensus_point c ->
  vexec (dc_inner (Some g) eps) (fun _ => tt) c n (s, u) log -> perms_valid o s -> s_active s = [m0] ->
  vstep (dc_inner (Some g) eps) c o (s, u) = Ok (s', u') ->
  exists cp, only_consensus c o s m0 cp /\ forall m n v, cell (s_x s) m n = Some v ->
    exists w, g_solve g (fdiv (s_dt s) eps) v
        (c_vadd c (c_vadd c (c_vscale c (fmul (s_lamda s) (s_dt s)) (c_vsub c v cp)) (c_vscale c (fdiv (s_dt s) eps) (g_grad g v)))
                  (c_vscale c (s_sigma s) (c_noise c (s_dt s) (c_vsub c v cp) (o_z o m n)))) = Ok w /\
      cell (s_x s') m n = Some (c_pp c (c_vsub c v w)).
Proof. intros K V O. exact dc_contamination. Qed.
Print Assumptions C45_drift_constrained_moves_all_refuted.

Theorem C45_hypersurface_moves_all_refuted : forall K V (O : KOps K) S (c : cfg K V) n s u log o s' u' m0, one_consensus_point c ->
  vexec (hyper_inner S) (fun _ => tt) c n (s, u) log -> perms_valid o s -> s_active s = [m0] ->
  vstep (hyper_inner S) c o (s, u) = Ok (s', u') ->
  exists cp, only_consensus c o s m0 cp /\ forall m n v, cell (s_x s) m n = Some v ->
    cell (s_x s') m n = Some (c_pp c (h_proj S (c_vsub c (c_vadd c v (h_tan S v
        (c_vadd c (c_vscale c (s_dt s) cp) (c_vscale c (s_sigma s) (c_noise c (s_dt s) (c_vsub c v cp) (o_z o m n))))))
        (h_nc S (s_dt s) (s_sigma s) v (c_vsub c v cp))))).
Proof. intros K V O. exact hyper_contamination. Qed.
Print Assumptions C45_hypersurface_moves_all_refuted.

(** C45. RegCombinationCBO: the first step fixes the shape of the penalty weights to the runs active then; once that is all
    M >= 2 runs, every step with fewer active runs raises. *)
Theorem C45_reg_combination_raises : forall K V (O : KOps K) f reg pow la solve eps (c : cfg K V) n s ob log o l, penalised f reg pow la c -> one_consensus_point c ->
  vexec (reg_inner (reg_call f reg pow) solve eps) (reg_attr la) c n (s, ob) log -> o_lamda ob = Some l -> length l = s_M s -> 2 <= s_M s ->
  1 <= length (s_active s) < s_M s -> perms_valid o s ->
  vstep (reg_inner (reg_call f reg pow) solve eps) c o (s, ob) = Err ShapeError.
Proof. intros K V O. exact reg_raises. Qed.
Print Assumptions C45_reg_combination_raises.

Theorem C45_reg_combination_shape : forall K V (O : KOps K) f reg pow la solve eps (c : cfg K V) n s ob log o s' ob', penalised f reg pow la c -> one_consensus_point c ->
  vexec (reg_inner (reg_call f reg pow) solve eps) (reg_attr la) c n (s, ob) log -> perms_valid o s -> s_active s <> [] ->
  vstep (reg_inner (reg_call f reg pow) solve eps) c o (s, ob) = Ok (s', ob') ->
  exists l, o_lamda ob' = Some l /\ (forall l0, o_lamda ob = Some l0 -> l = l0) /\
    (o_lamda ob = None -> length l = length (s_active s)) /\ (n = 0 -> o_lamda ob = None).
Proof. intros K V O. exact reg_lamda. Qed.
Print Assumptions C45_reg_combination_shape.

(** C45. Terminated runs do move: run 1 has terminated, and the next step moves both of its particles. *)
Theorem C45_frozen_refuted : exists g c n s u log o s' u' m, vexec (dc_inner (Some g) (Fin 1%Z)) (fun _ : st Z Z => tt) c n (s, u) log /\
  perms_valid o s /\ s_active s = [0] /\ s_M s = 2 /\ ~ In m (s_active s) /\ one_consensus_point c /\
  vstep (dc_inner (Some g) (Fin 1%Z)) c o (s, u) = Ok (s', u') /\ nth_error (s_x s') m <> nth_error (s_x s) m.
Proof.
  assert (exists n s u log, vexec (dc_inner (Some zmulti) (Fin 1%Z)) (fun _ : st Z Z => tt) zcv n (s, u) log /\ exists s' u',
     perms_valid (zorc 0 [0; 1]) s /\ s_active s = [0] /\ s_M s = 2 /\ vstep (dc_inner (Some zmulti) (Fin 1%Z)) zcv (zorc 0 [0; 1]) (s, u) = Ok (s', u') /\
     nth_error (s_x s') 1 <> nth_error (s_x s) 1) as H.
  { run_vscript (vscript (dc_inner (Some zmulti) (Fin 1%Z)) (fun _ : st Z Z => tt) zcv zxv (Fin 1%Z) (Fin 0%Z) (Fin 1%Z) (Fin 1%Z) [0; 1]
      [ATerm; AStep (zorc 0 [0; 1]); ATerm]).
    eexists _, _. split; [apply zperm_valid; reflexivity|]. split; [reflexivity|]. split; [reflexivity|]. split; [vm_compute; reflexivity|].
    vm_compute. discriminate. }
  destruct H as (n & s & u & log & HE & s' & u' & P & HA & HM & HS & HN).
  exists zmulti, zcv, n, s, u, log, (zorc 0 [0; 1]), s', u', 1. split; auto. split; auto. split; auto. split; auto.
  split. { rewrite HA. cbn. intuition lia. } split. { apply zbest_one. } auto.
Qed.
Print Assumptions C45_frozen_refuted.

Example C45_raises_case : exists n s u log, vexec (dc_inner (Some zmulti) (Fin 1%Z)) (fun _ : st Z Z => tt) zcv3 n (s, u) log /\
  s_active s = [0; 2] /\ s_M s = 3.
Proof.
  run_vscript (vscript (dc_inner (Some zmulti) (Fin 1%Z)) (fun _ : st Z Z => tt) zcv3 zxv3 (Fin 1%Z) (Fin 0%Z) (Fin 1%Z) (Fin 1%Z) [0; 1]
      [ATerm; AStep (zorc 0 [0; 1]); ATerm]). auto.
Qed.

Example C45_hypersurface_case : exists n s u log, vexec (hyper_inner (mksurface (fun x z => z) zclip5 (fun dt sg x d => d))) (fun _ : st Z Z => tt) zcv n (s, u) log /\
  one_consensus_point zcv /\ exists o s' u', perms_valid o s /\ s_active s = [0] /\ s_M s = 2 /\
  vstep (hyper_inner (mksurface (fun x z => z) zclip5 (fun dt sg x d => d))) zcv o (s, u) = Ok (s', u') /\ nth_error (s_x s') 1 <> nth_error (s_x s) 1.
Proof.
  run_vscript (vscript (hyper_inner (mksurface (fun x z => z) zclip5 (fun dt sg x d => d))) (fun _ : st Z Z => tt) zcv zxv (Fin 1%Z) (Fin 0%Z) (Fin 1%Z) (Fin 1%Z) [0; 1]
      [ATerm; AStep (zorc 0 [0; 1]); ATerm]).
  split; [apply zbest_one|]. exists (zorc 0 [0; 1]). eexists _, _. split; [apply zperm_valid; reflexivity|].
  split; [reflexivity|]. split; [reflexivity|]. split; [vm_compute; reflexivity|]. vm_compute. discriminate.
Qed.

(** Two runs of two particles, energies -inf or +inf, the second run is terminated after the first step. *)
Definition rgf (v : Z) : fl R := if Z.eqb v 0 then NInf else PInf.
Definition rgreg (v : Z) : fl R := Fin 0%R.
Definition rgc : cfg R Z :=
  {| c_f := fun v => fadd (rgf v) (fmul (Fin 1%R) (rgreg v)); c_vadd := Z.add; c_vsub := Z.sub; c_vscale := fun _ v => v;
     c_norm := fun _ => Fin 0%R; c_dmean := fun _ => Fin 0%R; c_ccrow := fun e x a => [hd 0%Z x]; c_noise := fun dt d z => z; c_pp := fun v => v;
     c_corr := NoCorr; c_bsize := 2; c_partial := false; c_concat := false;
     c_crit := [CCustom (fun s => [false; 1 <=? s_it s])]; c_savepts := false |}.
Definition rgi := reg_inner (V := Z) (reg_call rgf rgreg (fun a => a)) None (Fin 1%R).

Example C45_reg_combination_case : exists n s ob log, vexec rgi (reg_attr (Fin 1%R)) rgc n (s, ob) log /\
  penalised rgf rgreg (fun a => a) (Fin 1%R) rgc /\ one_consensus_point rgc /\ s_active s = [0] /\ s_M s = 2 /\ n = 1 /\
  (exists l, o_lamda ob = Some l /\ length l = s_M s) /\ perms_valid (zorc 0 [0; 1]) (s : st R Z).
Proof.
  run_vscript (vscript rgi (reg_attr (Fin 1%R)) rgc [[9; 7]; [3; 0]]%Z (Fin 1%R) (Fin 0%R) (Fin 1%R) (Fin 1%R) [0; 1]
      [ATerm; AStep (zorc 0 [0; 1]); ATerm]).
  split; [intros v; reflexivity|]. split; [intros e x a; reflexivity|]. split; [reflexivity|]. split; [reflexivity|]. split; [reflexivity|].
  split; [eexists; split; reflexivity|]. intros m _. apply (perm_b_ok 2). reflexivity.
Qed.

(** ** C46 *)

(** C46. Without constraints DriftConstrainedCBO never moves a particle (other than by post-processing). *)
Theorem C46_step_refuted : forall K V (O : KOps K) eps (c : cfg K V) o s s' u u', vstep (dc_inner None eps) c o (s, u) = Ok (s', u') ->
  s_x s' = map (map (c_pp c)) (s_x s).
Proof. intros K V O. exact dc_none_frozen. Qed.
Print Assumptions C46_step_refuted.

Theorem C46_execution_refuted : forall K V (O : KOps K) eps (c : cfg K V) n s u log, (forall v, c_pp c (c_pp c v) = c_pp c v) ->
  vexec (dc_inner None eps) (fun _ => tt) c n (s, u) log ->
  exists s0, constructed c s0 /\ s_x s = (if n =? 0 then s_x s0 else map (map (c_pp c)) (s_x s0)).
Proof. intros K V O. exact dc_none_constant. Qed.
Print Assumptions C46_execution_refuted.

(** after three steps the ensemble is where it started; CBO from the same state moves *)
Example C46_case : exists n s u log, vexec (dc_inner None (Fin 1%Z)) (fun _ : st Z Z => tt) zcv n (s, u) log /\
  (forall v, c_pp zcv (c_pp zcv v) = c_pp zcv v) /\ n = 3 /\ s_x s = zxv /\ s_active s = [0; 1] /\
  exists s', step zcv (zorc 0 [0; 1]) s = Ok s' /\ s_x s' <> s_x s.
Proof.
  run_vscript (vscript (dc_inner None (Fin 1%Z)) (fun _ : st Z Z => tt) zcv zxv (Fin 1%Z) (Fin 0%Z) (Fin 1%Z) (Fin 1%Z) [0; 1]
      [ATerm; AStep (zorc 0 [0; 1]); AStep (zorc 0 [0; 1]); AStep (zorc 0 [0; 1])]).
  split; [exact zclip_idem|]. split; [reflexivity|]. split; [reflexivity|]. split; [reflexivity|].
  eexists. split; [vm_compute; reflexivity|]. vm_compute. discriminate.
Qed.

(** ** C48 *)

(** C48. In every execution of AdamCBO, with any batch setting, the moments are the exponentially weighted sums of the drifts the particle
    has received, and of their squares. *)
Theorem C48_moments : forall f k pp co bs partial cat ks save b0 b1 eps d s m v D r n us,
  let c := cbo_cfg f k pp co bs partial cat ks save in
  adam_exec (adam_inner np_sq np_quot (mkapar (Fin b0) (Fin b1) (Fin eps))) (adam_attr (floats (repeat 0%R d))) c (s, (m, v)) D ->
  r < s_M s -> n < s_N s ->
  D r n = map floats us -> (forall u, In u us -> length u = d) ->
  exists mr vr, cell m r n = Some (floats mr) /\ cell v r n = Some (floats vr) /\ length mr = d /\ length vr = d /\
    forall i, i < d -> coord i mr = exp_weighted b0 (map (coord i) us) /\
                       coord i vr = exp_weighted b1 (map (fun u => (coord i u * coord i u)%R) us).
Proof. exact adam_moments_spec. Qed.
Print Assumptions C48_moments.

(** C48. Constant drift u: the corrected moments used by the step are u and u^2 at every iteration, as long as the
    particle has received one drift per iteration. *)
Theorem C48_bias_correction : forall f k pp co bs partial cat ks save b0 b1 eps d, (0 <= b0 < 1)%R -> (0 <= b1 < 1)%R ->
  let c := cbo_cfg f k pp co bs partial cat ks save in
  let inner := adam_inner np_sq np_quot (mkapar (Fin b0) (Fin b1) (Fin eps)) in
  forall s m v D o s' m' v' r n u, adam_exec inner (adam_attr (floats (repeat 0%R d))) c (s, (m, v)) D ->
  perms_valid o s -> s_active s <> [] -> vstep inner c o (s, (m, v)) = Ok (s', (m', v')) -> r < s_M s -> n < s_N s ->
  D r n ++ drift_at s s' r n = repeat (floats u) (S (s_it s)) -> length u = d ->
  exists mn vn, cell m' r n = Some mn /\ cell v' r n = Some vn /\
    map (fmul (adam_factor (Fin b0) (s_it s))) mn = floats u /\
    map (fmul (adam_factor (Fin b1) (s_it s))) vn = floats (squares u).
Proof. intros. eapply adam_bias_exact; eauto. Qed.
Print Assumptions C48_bias_correction.

(** C48. … which is the case with full updates, while the run stays active and reset() is not called. *)
Theorem C48_uninterrupted : forall f k pp co bs partial cat ks save b0 b1 eps d,
  let c := cbo_cfg f k pp co bs partial cat ks save in
  let inner := adam_inner np_sq np_quot (mkapar (Fin b0) (Fin b1) (Fin eps)) in
  forall r s m v D, adam_uninterrupted inner (adam_attr (floats (repeat 0%R d))) c r (s, (m, v)) D -> adam_full c s ->
  adam_exec inner (adam_attr (floats (repeat 0%R d))) c (s, (m, v)) D /\ forall n, n < s_N s -> length (D r n) = s_it s.
Proof. intros. apply adam_uninterrupted_count; auto. Qed.
Print Assumptions C48_uninterrupted.

(** C48. With partial updates from mini-batches it is not: a particle that is missing from the batch of one step has received fewer
    drifts than there were iterations … *)
Theorem C48_missed_batch : forall f k pp co bs partial cat ks save b0 b1 eps d,
  let c := cbo_cfg f k pp co bs partial cat ks save in
  let inner := adam_inner np_sq np_quot (mkapar (Fin b0) (Fin b1) (Fin eps)) in
  forall r s m v D o s' m' v' n, adam_uninterrupted inner (adam_attr (floats (repeat 0%R d))) c r (s, (m, v)) D ->
  perms_valid o s -> In r (s_active s) -> vstep inner c o (s, (m, v)) = Ok (s', (m', v')) -> n < s_N s ->
  ~ In n (PdynStep.run_selp c o s r) -> length (D r n ++ drift_at s s' r n) < s_it s'.
Proof. intros. eapply adam_missed; eauto. Qed.
Print Assumptions C48_missed_batch.

(** … and from then on the corrected moments of a constant drift are proper fractions of the drift and its square. *)
Theorem C48_mini_batches_refuted : forall f k pp co bs partial cat ks save b0 b1 eps d, (0 < b0 < 1)%R -> (0 < b1 < 1)%R ->
  let c := cbo_cfg f k pp co bs partial cat ks save in
  let inner := adam_inner np_sq np_quot (mkapar (Fin b0) (Fin b1) (Fin eps)) in
  forall r s m v D o s' m' v' n u, adam_uninterrupted inner (adam_attr (floats (repeat 0%R d))) c r (s, (m, v)) D ->
  perms_valid o s -> In r (s_active s) -> vstep inner c o (s, (m, v)) = Ok (s', (m', v')) -> r < s_M s -> n < s_N s ->
  length (D r n) < s_it s -> drift_at s s' r n <> [] -> (forall w, In w (D r n ++ drift_at s s' r n) -> w = floats u) -> length u = d ->
  exists mn vn q0 q1, cell m' r n = Some mn /\ cell v' r n = Some vn /\ (0 < q0 < 1)%R /\ (0 < q1 < 1)%R /\
    map (fmul (adam_factor (Fin b0) (s_it s))) mn = floats (vscal q0 u) /\
    map (fmul (adam_factor (Fin b1) (s_it s))) vn = floats (vscal q1 (squares u)).
Proof. intros. eapply adam_partial; eauto; lra. Qed.
Print Assumptions C48_mini_batches_refuted.

(** C48. What a step does with them: x - (lamda * corrected m / (sqrt(corrected v) + eps) - sigma * noise), and the drift is
    x minus the consensus of the run.  Particles of terminated runs and outside the batch keep moments and position; [i] is the (last)
    place of the particle in the batch. *)
Theorem C48_step : forall f k pp co bs partial cat ks save b0 b1 eps d,
  let c := cbo_cfg f k pp co bs partial cat ks save in
  let inner := adam_inner np_sq np_quot (mkapar (Fin b0) (Fin b1) (Fin eps)) in
  forall o s m v s' m' v' D r n, adam_exec inner (adam_attr (floats (repeat 0%R d))) c (s, (m, v)) D -> perms_valid o s -> s_active s <> [] ->
  vstep inner c o (s, (m, v)) = Ok (s', (m', v')) -> n < s_N s ->
  ((~ In r (s_active s) \/ ~ In n (PdynStep.run_selp c o s r)) /\ drift_at s s' r n = [] /\ cell m' r n = cell m r n /\ cell v' r n = cell v r n /\
    cell (s_x s') r n = option_map pp (cell (s_x s) r n)) \/
  (exists j i xv mv vv dv, nth_error (s_active s) j = Some r /\ nth_error (PdynStep.run_selp c o s r) i = Some n /\
     (forall i', i < i' -> nth_error (PdynStep.run_selp c o s r) i' <> Some n) /\
     drift_at s s' r n = [dv] /\ cell (s_x s) r n = Some xv /\
     cell m r n = Some mv /\ cell v r n = Some vv /\
     (exists xr xb a cv, nth_error (s_x s) r = Some xr /\ nth_error (s_alpha s) r = Some [a] /\ takeM xr (PdynStep.run_sel c o s r) = Ok xb /\
         Consensus.cc_default (map f xb) xb a = [cv] /\ dv = map2 fsub xv cv) /\
     let mn := map2 fadd (map (fmul (Fin b0)) mv) (map (fmul (Fin (1 - b0)%R)) dv) in
     let vn := map2 fadd (map (fmul (Fin b1)) vv) (map (fmul (Fin (1 - b1)%R)) (np_sq dv)) in
     cell m' r n = Some mn /\ cell v' r n = Some vn /\
     cell (s_x s') r n = Some (pp (map2 fsub xv (map2 fsub (map (fmul (s_lamda s)) (np_quot (Fin eps)
         (map (fmul (adam_factor (Fin b0) (s_it s))) mn) (map (fmul (adam_factor (Fin b1) (s_it s))) vn)))
         (map (fmul (s_sigma s)) (noise_of k (s_dt s) dv (o_z o j i))))))).
Proof. exact drift_at_char. Qed.
Print Assumptions C48_step.

(** C48. A step of AdamCBO never raises, for any batch setting and any set of active runs. *)
Theorem C48_never_raises : forall f k pp co bs partial cat ks save b0 b1 eps d,
  let c := cbo_cfg f k pp co bs partial cat ks save in
  let inner := adam_inner np_sq np_quot (mkapar (Fin b0) (Fin b1) (Fin eps)) in
  forall o s m v D, adam_exec inner (adam_attr (floats (repeat 0%R d))) c (s, (m, v)) D -> perms_valid o s -> s_active s <> [] ->
  exists r, vstep inner c o (s, (m, v)) = Ok r.
Proof. exact adam_never_raises. Qed.
Print Assumptions C48_never_raises.

Theorem C48_second_moment_nonneg : forall f k pp co bs partial cat ks save b0 b1 eps d, (0 <= b1 < 1)%R ->
  let c := cbo_cfg f k pp co bs partial cat ks save in
  forall s m v D r n us, adam_exec (adam_inner np_sq np_quot (mkapar (Fin b0) (Fin b1) (Fin eps))) (adam_attr (floats (repeat 0%R d))) c (s, (m, v)) D ->
  r < s_M s -> n < s_N s -> D r n = map floats us -> (forall u, In u us -> length u = d) ->
  exists w, cell v r n = Some (floats w) /\ forall a, In a w -> (0 <= a)%R.
Proof. intros. eapply adam_second_nonneg; eauto. Qed.
Print Assumptions C48_second_moment_nonneg.

(** C48. After reset() (it = 0, moments kept) the corrected moment of a constant non-zero drift is not the drift. *)
Theorem C48_after_reset_refuted : forall f k pp co bs partial cat ks save b0 b1 eps d, (0 < b0 < 1)%R -> (0 <= b1 < 1)%R ->
  let c := cbo_cfg f k pp co bs partial cat ks save in
  let inner := adam_inner np_sq np_quot (mkapar (Fin b0) (Fin b1) (Fin eps)) in
  forall s m v D o s' m' v' r n u j mn, adam_exec inner (adam_attr (floats (repeat 0%R d))) c (s, (m, v)) D ->
  D r n <> [] -> perms_valid o (reset s) -> s_active s <> [] -> vstep inner c o (reset s, (m, v)) = Ok (s', (m', v')) ->
  drift_at (reset s) s' r n <> [] ->
  r < s_M s -> n < s_N s -> D r n ++ drift_at (reset s) s' r n = repeat (floats u) j -> length u = d ->
  (exists a, In a u /\ a <> 0%R) -> cell m' r n = Some mn ->
  map (fmul (adam_factor (Fin b0) (s_it (reset s)))) mn <> floats u.
Proof. intros. eapply adam_after_reset; eauto; lra. Qed.
Print Assumptions C48_after_reset_refuted.

(** a run of any length with constant drift -1 (particle 0) *)
Example C48_case : forall j, exists s m v D s' m' v', adam_exec ainner aattr ac (s, (m, v)) D /\ adam_full ac s /\ perms_valid aorc s /\ s_active s = [0] /\
  0 < s_M s /\ 0 < s_N s /\ vstep ainner ac aorc (s, (m, v)) = Ok (s', (m', v')) /\ s_it s = j /\
  D 0 0 ++ drift_at s s' 0 0 = repeat (floats [(-1)%R]) (S (s_it s)).
Proof.
  intros j. destruct (still_n j) as (s & m & v & D & HS & Hi). destruct (still_step _ _ _ _ _ HS) as (s' & m' & v' & E & HS' & _).
  exists s, m, v, D, s', m', v'. split; [apply HS|]. split; [apply afull, HS|]. split; [apply aperm, HS|]. split; [apply HS|].
  split; [rewrite (st_M _ _ _ _ _ HS); lia|]. split; [rewrite (st_N _ _ _ _ _ HS); lia|]. split; [exact E|]. split; [exact Hi|].
  rewrite Hi. exact (st_D0 _ _ _ _ _ HS').
Qed.

Example C48_reset_case : exists s m v D s' m' v' j, adam_exec ainner aattr ac (s, (m, v)) D /\ D 0 0 <> [] /\ perms_valid aorc (reset s) /\
  s_active s <> [] /\ vstep ainner ac aorc (reset s, (m, v)) = Ok (s', (m', v')) /\ drift_at (reset s) s' 0 0 <> [] /\ 0 < s_M s /\ 0 < s_N s /\
  D 0 0 ++ drift_at (reset s) s' 0 0 = repeat (floats [(-1)%R]) j.
Proof.
  destruct (still_n 1) as (s & m & v & D & HS & Hi). pose proof (still_reset _ _ _ _ _ HS) as HR.
  destruct (still_step _ _ _ _ _ HR) as (s' & m' & v' & E & HS' & _).
  exists s, m, v, D, s', m', v', 2. split; [apply HS|]. split; [rewrite (st_D0 _ _ _ _ _ HS); discriminate|].
  split; [apply aperm, HR|]. split; [rewrite (st_act _ _ _ _ _ HS); discriminate|]. split; [exact E|].
  split. { intros E0. pose proof (st_D0 _ _ _ _ _ HS') as H1. cbv beta in H1. rewrite E0, (st_D0 _ _ _ _ _ HS) in H1. discriminate. }
  split; [rewrite (st_M _ _ _ _ _ HS); lia|]. split; [rewrite (st_N _ _ _ _ _ HS); lia|]. exact (st_D0 _ _ _ _ _ HS').
Qed.

(** three particles in batches of two: particle 0 misses the first batch and is in the second one *)
Example C48_mini_batch_case : exists s m v D s' m' v', adam_uninterrupted ainner aattr bcf 0 (s, (m, v)) D /\
  perms_valid (borc [0; 1; 2]) s /\ In 0 (s_active s) /\ vstep ainner bcf (borc [0; 1; 2]) (s, (m, v)) = Ok (s', (m', v')) /\
  0 < s_M s /\ 0 < s_N s /\ length (D 0 0) < s_it s /\ drift_at s s' 0 0 <> [] /\
  (forall w, In w (D 0 0 ++ drift_at s s' 0 0) -> w = floats [(-1)%R]).
Proof.
  destruct b_missed_then_served as (s & m & v & D & s' & m' & v' & H1 & H2 & H3 & H4 & H5 & H6 & H7 & H8 & H9).
  exists s, m, v, D, s', m', v'. split; auto. split; auto. split; [rewrite H3; cbn; auto|]. split; auto. split; [lia|]. split; [lia|].
  split; [rewrite H7, H6; cbn; lia|]. rewrite H9, H7. split; [discriminate|]. intros w [<-|[]]; auto.
Qed.

(** ** C52 (any mirror map; the maps of cbx are in Props_Mirror.v) *)

(** C52. After a positive number of steps every particle of every run is the (post-processed) image of its dual point. *)
Theorem C52_dual : forall K V (O : KOps K) gc gr (c : cfg K V) n s y log, vexec (mirror_inner gc) (mirror_attr gr) c n (s, y) log -> n <> 0 ->
  s_x s = map (map (fun v => c_pp c (gc v))) y.
Proof. intros K V O. exact mirror_dual. Qed.
Print Assumptions C52_dual.

Theorem C52_feasible : forall K V (O : KOps K) gc gr (c : cfg K V) n s y log (C : V -> Prop), (forall v, C (gc v)) ->
  vexec (mirror_inner gc) (mirror_attr gr) c n (s, y) log -> n <> 0 ->
  forall m xr v, nth_error (s_x s) m = Some xr -> In v xr -> exists w, C w /\ v = c_pp c w.
Proof. intros K V O. exact mirror_feasible. Qed.
Print Assumptions C52_feasible.

(** C52. Terminated runs stay where they are. *)
Theorem C52_terminated : forall K V (O : KOps K) gc gr (c : cfg K V) n s y log o s' y' m, vexec (mirror_inner gc) (mirror_attr gr) c n (s, y) log ->
  perms_valid o s -> s_active s <> [] -> vstep (mirror_inner gc) c o (s, y) = Ok (s', y') -> ~ In m (s_active s) ->
  nth_error y' m = nth_error y m /\ (n <> 0 -> nth_error (s_x s') m = nth_error (s_x s) m).
Proof. intros K V O. exact mirror_frozen. Qed.
Print Assumptions C52_terminated.

(** C52. With the identity map (default L2 map) every execution is one of CBO, as long as post-processing changes nothing. *)
Theorem C52_identity_is_cbo : forall K V (O : KOps K) gc gr (c : cfg K V) n s y log, (forall v, gc v = v) -> (forall v, gr v = v) -> (forall v, c_pp c v = v) ->
  vexec (mirror_inner gc) (mirror_attr gr) c n (s, y) log -> exec c s log /\ y = s_x s.
Proof. intros K V O. exact mirror_is_cbo. Qed.
Print Assumptions C52_identity_is_cbo.

Theorem C52_identity_step : forall K V (O : KOps K) gc (c : cfg K V) o s s', (forall v, gc v = v) ->
  (step c o s = Ok s' <-> exists y', vstep (mirror_inner gc) c o (s, s_x s) = Ok (s', y')).
Proof. intros K V O. exact mirror_id_step. Qed.
Print Assumptions C52_identity_step.

(** C52. With clipping the two differ: the dual point is not clipped.  Same start, same draws, two steps. *)
Theorem C52_clipping_refuted : exists s0 o1 o2 s1 s2 s1' y1 s2' y2, constructed zcv s0 /\
  step zcv o1 s0 = Ok s1 /\ step zcv o2 s1 = Ok s2 /\
  vstep (mirror_inner (fun v => v)) zcv o1 (s0, mirror_attr (fun v : Z => v) s0) = Ok (s1', y1) /\
  vstep (mirror_inner (fun v => v)) zcv o2 (s1', y1) = Ok (s2', y2) /\
  s_x s1' = s_x s1 /\ s_x s2' <> s_x s2.
Proof. exact mirror_clipping. Qed.
Print Assumptions C52_clipping_refuted.

Example C52_case : exists n s y log, vexec (mirror_inner zclip5) (mirror_attr (fun v : Z => v)) zcv n (s, y) log /\
  (forall v, (Z.abs (zclip5 v) <= 5)%Z) /\ n = 2 /\ s_active s = [0] /\ s_M s = 2 /\ s_x s <> y.
Proof.
  run_vscript (vscript (mirror_inner zclip5) (mirror_attr (fun v : Z => v)) zcv zxv (Fin 1%Z) (Fin 1%Z) (Fin 1%Z) (Fin 1%Z) [0; 1]
      [ATerm; AStep (zorc 3 [0; 1]); ATerm; AStep (zorc (-20) [0; 1]); ATerm]).
  split. { intros v. unfold zclip5. lia. } split; [reflexivity|]. split; [reflexivity|]. split; [reflexivity|]. vm_compute. discriminate.
Qed.

(** ** C76: best particle and best energy of the variants *)

(** C76. For all five variants: best_energy is the minimum of the objective over all points the run evaluated, and best_particle
    attains it (unless no finite value was seen). *)
Theorem C76_mirror_best : forall K V (O : KOps K) (OL : KOrd K) gc gr (c : cfg K V) n s y log m be bp, no_nan c ->
  vexec (mirror_inner gc) (mirror_attr gr) c n (s, y) log -> nth_error (s_be s) m = Some be -> nth_error (s_bp s) m = Some bp ->
  (be = PInf \/ (In (m, bp) log /\ be = c_f c bp)) /\ is_minimum be (values_of c m log).
Proof. intros K V O OL. exact mirror_best. Qed.
Print Assumptions C76_mirror_best.

Theorem C76_adam_best : forall K V (O : KOps K) (OL : KOrd K) vsq vquot p z (c : cfg K V) n s mv log m be bp, no_nan c ->
  vexec (adam_inner vsq vquot p) (adam_attr z) c n (s, mv) log -> nth_error (s_be s) m = Some be -> nth_error (s_bp s) m = Some bp ->
  (be = PInf \/ (In (m, bp) log /\ be = c_f c bp)) /\ is_minimum be (values_of c m log).
Proof. intros K V O OL. exact adam_best. Qed.
Print Assumptions C76_adam_best.

Theorem C76_drift_constrained_best : forall K V (O : KOps K) (OL : KOrd K) G eps (c : cfg K V) n s u log m be bp, no_nan c ->
  vexec (dc_inner G eps) (fun _ => tt) c n (s, u) log -> nth_error (s_be s) m = Some be -> nth_error (s_bp s) m = Some bp ->
  (be = PInf \/ (In (m, bp) log /\ be = c_f c bp)) /\ is_minimum be (values_of c m log).
Proof. intros K V O OL. exact dc_best. Qed.
Print Assumptions C76_drift_constrained_best.

Theorem C76_hypersurface_best : forall K V (O : KOps K) (OL : KOrd K) S (c : cfg K V) n s u log m be bp, no_nan c -> one_consensus_point c ->
  vexec (hyper_inner S) (fun _ => tt) c n (s, u) log -> nth_error (s_be s) m = Some be -> nth_error (s_bp s) m = Some bp ->
  (be = PInf \/ (In (m, bp) log /\ be = c_f c bp)) /\ is_minimum be (values_of c m log).
Proof. intros K V O OL. exact hyper_best. Qed.
Print Assumptions C76_hypersurface_best.

(** RegCombinationCBO: the objective is f + (1/nu) R(x)^p. *)
Theorem C76_reg_combination_best : forall K V (O : KOps K) (OL : KOrd K) f reg pow la solve eps (c : cfg K V) n s ob log m be bp, no_nan c -> penalised f reg pow la c -> one_consensus_point c ->
  vexec (reg_inner (reg_call f reg pow) solve eps) (reg_attr la) c n (s, ob) log -> nth_error (s_be s) m = Some be -> nth_error (s_bp s) m = Some bp ->
  (be = PInf \/ (In (m, bp) log /\ be = c_f c bp)) /\ is_minimum be (values_of c m log).
Proof. intros K V O OL f reg pow la solve eps. exact (reg_best f reg pow la solve eps). Qed.
Print Assumptions C76_reg_combination_best.

Example C76_case : exists n s y log, vexec (mirror_inner zclip5) (mirror_attr (fun v : Z => v)) zcv n (s, y) log /\
  no_nan zcv /\ s_be s = [Fin 25; Fin 4]%Z /\ s_bp s = [5; 2]%Z /\ length log = 6.
Proof.
  run_vscript (vscript (mirror_inner zclip5) (mirror_attr (fun v : Z => v)) zcv zxv (Fin 1%Z) (Fin 1%Z) (Fin 1%Z) (Fin 1%Z) [0; 1]
      [ATerm; AStep (zorc 3 [0; 1]); ATerm; AStep (zorc (-20) [0; 1]); ATerm]).
  split; [apply sq_no_nan|]. auto.
Qed.
