(** * C83: the independent noise of DriftConstrainedCBO *)
From Coq Require Import String List Arith Bool ZArith.
From Verif Require Import Scalar Np State Pdyn Exec Variant VarSpec ExZ KickNoise KickSpec KickFacts KickStep ExKick.
Import ListNotations.
Open Scope nat_scope.
Open Scope list_scope.

(** C83. In every reachable state, with sigma_indep > 0: the step first moves the ensembles to [x1], where no run is collapsed
    any more, runs that were not collapsed are as before, and the others have only received noise, in pass i of step k from the draws of pass i of step k; then the energies
    are those of [x1]. *)
Theorem C83_step : forall K V (O : KOps K) fuel p zs G eps (c : cfg K V) n s k log o s' k' cp, one_consensus_point c -> c_bsize c = s_N s ->
  vexec (dck_inner fuel p zs G eps) (fun _ => 0) c n (s, k) log -> perms_valid o s -> s_active s <> [] -> s_cons s = Some cp ->
  fltb (Fin k0) (k_sig p) = true -> vstep (dck_inner fuel p zs G eps) c o (s, k) = Ok (s', k') ->
  exists x1, length x1 = length (s_x s) /\ (forall m, ~ collapsed p c cp x1 m) /\
    (forall m, ~ collapsed p c cp (s_x s) m -> nth_error x1 m = nth_error (s_x s) m) /\
    (forall m row row', nth_error (s_x s) m = Some row -> nth_error x1 m = Some row' -> kicked (k_inc p (k_sig p) (s_dt s)) (c_vadd c) (zs k) 0 row row') /\
    (forall m row row1 be bp, In m (s_active s) -> nth_error (s_x s) m = Some row -> nth_error x1 m = Some row1 ->
       nth_error (s_be s) m = Some be -> nth_error (s_bp s) m = Some bp ->
       nth_error (s_energy s') m = Some (map (c_f c) row1) /\
       exists j v v1, nth_error row j = Some v /\ nth_error row1 j = Some v1 /\
         nth_error (s_be s') m = Some (if fltb (c_f c v1) be then c_f c v1 else be) /\
         nth_error (s_bp s') m = Some (if fltb (c_f c v1) be then v else bp)).
Proof. intros K V O. exact dck_full. Qed.
Print Assumptions C83_step.

(** C83. With sigma_indep <= 0, or before the first consensus, the step is that of DriftConstrainedCBO without independent noise. *)
Theorem C83_off : forall K V (O : KOps K) fuel p zs G eps (c : cfg K V) o s k, (fltb (Fin k0) (k_sig p) = false \/ s_cons s = None) ->
  vstep (dck_inner fuel p zs G eps) c o (s, k) = (q <- vstep (dc_inner G eps) c o (s, tt) ;; Ok (fst q, S k)).
Proof. intros K V O. exact dck_off. Qed.
Print Assumptions C83_off.

(** C83. The loop does nothing if no run is collapsed, and the number of passes allowed does not change its result. *)
Theorem C83_idle : forall K V (O : KOps K) fuel p (c : cfg K V) dt z i x cp, cons_shape (length x) cp -> (forall m, ~ collapsed p c cp x m) ->
  kick_loop fuel p c dt z i x cp = Some (Ok x).
Proof. intros K V O. exact kick_idle. Qed.
Print Assumptions C83_idle.

Theorem C83_fuel : forall K V (O : KOps K) fuel fuel' p (c : cfg K V) dt z i x cp r, kick_loop fuel p c dt z i x cp = Some r -> fuel <= fuel' ->
  kick_loop fuel' p c dt z i x cp = Some r.
Proof. intros K V O. exact kick_fuel. Qed.
Print Assumptions C83_fuel.

(** C83. If the increments vanish (dt = 0) and a run is collapsed, the step never returns. *)
Theorem C83_never_returns_refuted : forall K V (O : KOps K) fuel0 p zs G eps (c : cfg K V) n s k log o s0 cp m, one_consensus_point c ->
  vexec (dck_inner fuel0 p zs G eps) (fun _ => 0) c n (s, k) log -> pre_step c o s = Ok s0 -> s_cons s = Some cp ->
  fltb (Fin k0) (k_sig p) = true -> collapsed p c cp (s_x s) m -> (forall v w, c_vadd c v (k_inc p (k_sig p) (s_dt s) w) = v) ->
  forall fuel, indep_noise fuel p c (zs k) s0 = None.
Proof. intros K V O. exact dck_stuck. Qed.
Print Assumptions C83_never_returns_refuted.

(** C83. best_energy 0 is the value of a point after the noise, best_particle 3 the point before it, whose value is 9. *)
Theorem C83_best_pair_refuted : exists n s k log o s' k' cp, vexec (kin 3) (fun _ => 0) kcf n (s, k) log /\ perms_valid o s /\ s_active s <> [] /\ s_cons s = Some cp /\
  vstep (kin 3) kcf o (s, k) = Ok (s', k') /\ c_bsize kcf = s_N s /\ collapsed kkp kcf cp (s_x s) 0 /\ s_be s' = [Fin 0%Z] /\ s_bp s' = [3%Z] /\ c_f kcf 3%Z = Fin 9%Z.
Proof. exact k_best_lost. Qed.
Print Assumptions C83_best_pair_refuted.

(** C83. Run 1 has terminated and is still moved by the noise. *)
Theorem C83_frozen_refuted : exists n s k log o s' k', vexec (kin 3) (fun _ => 0) kcf n (s, k) log /\ perms_valid o s /\ s_active s = [0] /\ s_M s = 2 /\
  vstep (kin 3) kcf o (s, k) = Ok (s', k') /\ nth_error (s_x s) 1 = Some [5; 5]%Z /\ nth_error (s_x s') 1 = Some [2; 10]%Z.
Proof. exact k_frozen_moves. Qed.
Print Assumptions C83_frozen_refuted.

(** dt = 0 after one step *)
Example C83_case : one_consensus_point kcf /\ fltb (Fin k0) (k_sig kkp) = true /\ exists n s k log o s0 cp, vexec (kin 3) (fun _ => 0) kcf n (s, k) log /\
  pre_step kcf o s = Ok s0 /\ s_cons s = Some cp /\
  collapsed kkp kcf cp (s_x s) 0 /\ s_active s = [0] /\ (forall v w, c_vadd kcf v (k_inc kkp (k_sig kkp) (s_dt s) w) = v).
Proof. split; [apply zbest_one|]. split; [reflexivity|]. exact k_never. Qed.

(** an ensemble that is not collapsed, and one that needs one pass *)
Example C83_loop_case : cons_shape 1 [[3%Z]] /\ ~ collapsed kkp kcf [[3%Z]] [[0%Z; 8%Z]] 0 /\
  kick_loop 0 kkp kcf (Fin 1%Z) (kzs 0) 0 [[3%Z; 3%Z]] [[3%Z]] = None /\
  kick_loop 1 kkp kcf (Fin 1%Z) (kzs 0) 0 [[3%Z; 3%Z]] [[3%Z]] = Some (Ok [[0%Z; 8%Z]]).
Proof.
  split. { split; [intros r [<-|[]]; eauto|auto]. } split.
  { intros (row & q & [= <-] & [= <-] & H). vm_compute in H. discriminate. } split; reflexivity.
Qed.
