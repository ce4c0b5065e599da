(** * C59 - C62, C73, C74: resampling and success evaluation *)
From Coq Require Import List Arith Bool Reals Lra Lia ZArith.
From Verif Require Import Scalar Np NpFacts Nd State Pdyn PdynFacts Exec Script ExZ Resampling ResampSpec ResampFacts StagFacts ResampApply ResampTerm BestCons Success SuccessFacts ExResamp RsmCalls ExRsm.
Import ListNotations.
Open Scope nat_scope.
Open Scope list_scope.

(** C59. loss_update_resampling selects run m at call k iff the number of calls since the last strict
    improvement of its best energy (or since the start) is a positive multiple of the threshold. *)
Theorem C59_loss_update : forall K V (O : KOps K) (OO : KOrd K) thresh M (ss : list (st K V)), 1 <= thresh ->
  Forall (fun s => s_M s = M /\ length (s_be s) = M) ss ->
  exists outs, loss_calls thresh ss None = Ok outs /\ length outs = length ss /\
    forall k out m, nth_error outs k = Some out -> m < M ->
      (In m out <-> exists q, 1 <= q /\ stale (seen ss m) k (q * thresh)).
Proof. intros K V O OO. exact loss_spec. Qed.
Print Assumptions C59_loss_update.

Example C59_case : exists s log, exec zc1 s log /\ s_M s = 2 /\ length (s_be s) = 2 /\
  loss_calls 2 (repeat s 5) None = Ok [[]; []; [0; 1]; []; [0; 1]].
Proof. exact loss_example. Qed.

(** C60. consensus_stagnation selects an active run as soon as all the updates it has recorded, at most
    the last [p], are small; one recorded update is enough. *)
Theorem C60_stagnation : forall K V (O : KOps K) (OO : KOrd K) (c : cfg K V) norm1 vzero p t M (ss : list (st K V)),
  (forall a : K, kadd k0 a = a) -> Forall (one_point_per_run M) ss ->
  exists outs, stag_calls c norm1 vzero p t ss (mkcstag None []) = Ok outs /\ length outs = length ss /\
    forall k s out m, nth_error ss k = Some s -> nth_error outs k = Some out -> m < M ->
      (In m out <-> 1 <= k /\ In m (s_active s) /\
         all_small c norm1 vzero t ss m k (if p =? 0 then None else Some p)).
Proof. intros K V O OO. exact stag_spec. Qed.
Print Assumptions C60_stagnation.

(** The documented patience is not respected: whatever it is, the second call can select a run. *)
Theorem C60_patience_refuted : forall patience, 2 <= patience ->
  exists s1 log, exec zcs s1 log /\ exists o s2, perms_valid o s1 /\ step zcs o s1 = Ok s2 /\
    one_point_per_run 1 s1 /\ one_point_per_run 1 s2 /\
    stag_calls zcs zabs1 (fun _ => 0%Z) patience (Fin 1%Z) [s1; s2] (mkcstag None []) = Ok [[]; [0]].
Proof. exact stag_early. Qed.
Print Assumptions C60_patience_refuted.

(** C61. A call changes only the runs selected by some rule, and counts each of them once. *)
Theorem C61_resampling : forall K V (O : KOps K) (c : cfg K V) norm1 vzero amp z (r : rsm K V) (s : st K V) rules sels M N num,
  rect M N (s_x s) -> s_M s = M -> s_N s = N ->
  num = (match r_num r with Some l => l | None => repeat 0 M end) -> length num = M ->
  call_rules c norm1 vzero s (r_rules r) = Ok (rules, sels) -> sels <> [] ->
  (forall l m, In l sels -> In m l -> m < M) ->
  exists num' x', resampling_call c norm1 vzero amp false z r s = Ok (mkrsm rules (Some num') (r_bestc r), set_x x' s) /\
    rect M N x' /\ length num' = M /\
    (forall m row n, nth_error (s_x s) m = Some row -> nth_error num m = Some n ->
       (~ (exists l, In l sels /\ In m l) -> nth_error x' m = Some row /\ nth_error num' m = Some n) /\
       ((exists l, In l sels /\ In m l) ->
          nth_error num' m = Some (S n) /\
          exists k, nth_error x' m = Some (mapi (fun j v => c_vadd c v (c_vscale c amp (z k j))) row))).
Proof. intros K V O. exact resampling_spec. Qed.
Print Assumptions C61_resampling.

(** One resampling object called again and again: its rules remember.  With a loss rule and a consensus rule,
    call [k] resamples exactly the runs that are due by C59 or by C60, reckoned over all calls so far. *)
Theorem C61_repeated_calls : forall K V (O : KOps K) (OO : KOrd K) (c : cfg K V) norm1 vzero amp z b M N t p th (ss : list (st K V)),
  (forall a : K, kadd k0 a = a) -> 1 <= t ->
  Forall (one_point_per_run M) ss ->
  Forall (fun s => s_N s = N /\ length (s_be s) = M /\ rect M N (s_x s)) ss ->
  let r0 := mkrsm [RLoss t None; RCons p th (mkcstag None [])] None b in
  exists outs, rsm_calls c norm1 vzero amp z r0 ss = Ok outs /\ length outs = length ss /\
    forall k s r s' m, nth_error ss k = Some s -> nth_error outs k = Some (r, s') -> m < M ->
      let due := (exists n, 1 <= n /\ stale (seen ss m) k (n * t)) \/
                 (1 <= k /\ In m (s_active s) /\ all_small c norm1 vzero th ss m k (if p =? 0 then None else Some p)) in
      (due -> resamplings r m = S (resamplings (before r0 outs k) m) /\
         exists j row, nth_error (s_x s) m = Some row /\
           nth_error (s_x s') m = Some (mapi (fun n v => c_vadd c v (c_vscale c amp (z k j n))) row)) /\
      (~ due -> resamplings r m = resamplings (before r0 outs k) m /\ nth_error (s_x s') m = nth_error (s_x s) m).
Proof. intros K V O OO. exact rsm_both. Qed.
Print Assumptions C61_repeated_calls.

Example C61_repeated_calls_case : exists s log, exec zcs s log /\ one_point_per_run 1 s /\ s_N s = 2 /\ length (s_be s) = 1 /\ rect 1 2 (s_x s) /\
  (exists outs, rsm_calls zcs zabs1 (fun _ => 0%Z) (Fin 1%Z) (fun _ _ n => Z.of_nat n)
     (mkrsm [RLoss 2 None; RCons 3 (Fin 0%Z) (mkcstag None [])] None None) (repeat s 5) = Ok outs /\
     map (fun p => r_num (fst p)) outs = [Some [0]; Some [0]; Some [1]; Some [1]; Some [2]]) /\
  (exists outs, rsm_calls zcs zabs1 (fun _ => 0%Z) (Fin 1%Z) (fun _ _ n => Z.of_nat n)
     (mkrsm [RLoss 2 None; RCons 3 (Fin 1%Z) (mkcstag None [])] None None) (repeat s 5) = Ok outs /\
     map (fun p => r_num (fst p)) outs = [Some [0]; Some [1]; Some [2]; Some [3]; Some [4]]).
Proof. exact rsm_example. Qed.

(** A resampling object without rules raises. *)
Theorem C61_no_rules_raise : forall K V (O : KOps K) (c : cfg K V) norm1 vzero amp tr z num b (s : st K V),
  resampling_call c norm1 vzero amp tr z (mkrsm [] num b) s = Err ValueError.
Proof. intros K V O. exact resampling_no_rules. Qed.
Print Assumptions C61_no_rules_raise.

Example C61_case : exists s log, exec zc1 s log /\
  exists r s', resampling_call zc1 zabs1 (fun _ => 0%Z) (Fin 1%Z) false (fun _ n => Z.of_nat n)
      (mkrsm [RCustom (fun _ => [1]); RCustom (fun _ => [1; 1])] (Some [4; 2]) None) s = Ok (r, s') /\
    r_num r = Some [4; 3] /\ nth_error (s_x s') 0 = nth_error (s_x s) 0.
Proof. exact twice_example. Qed.

(** C62. A run is successful iff every criterion reports it; the rate is the share of successful runs. *)
Theorem C62_evaluation : forall K V (crits : list (st K V -> res (list nat))) (s : st K V) outs, 1 <= s_M s ->
  mapM (fun c => c s) crits = Ok outs ->
  exists r, evaluation (Some crits) s = Ok r /\
    (forall m, In m (sidx r) <-> m < s_M s /\ forall l, In l outs -> In m l) /\
    NoDup (sidx r) /\ num r = length (sidx r) /\ (rate r * INR (s_M s) = INR (num r))%R /\ (0 <= rate r <= 1)%R.
Proof. intros K V. exact evaluation_spec. Qed.
Print Assumptions C62_evaluation.

(** The value criterion: the runs whose best particle is below the threshold. *)
Theorem C62_value : forall K V (O : KOps K) (c : cfg K V) thresh (s : st K V), 1 <= length (s_bp s) ->
  exists r s', value_success c thresh s = Ok (r, s') /\
    (forall m v, nth_error (s_bp s) m = Some v -> (In m (sidx r) <-> fltb (c_f c v) thresh = true)) /\
    (forall m, In m (sidx r) -> m < length (s_bp s)) /\ NoDup (sidx r) /\
    num r = length (sidx r) /\ (rate r * INR (length (s_bp s)) = INR (num r))%R.
Proof. intros K V O. exact value_spec. Qed.
Print Assumptions C62_value.

(** The distance criterion: whatever number of runs and coordinates, including one of either, row m
    is compared with the minimiser (the array is squeezed before the subtraction). *)
Theorem C62_distance : forall K (O : KOps K) nrm (tol : fl K) (x_true x : nd (fl K)) M d, 1 <= M -> 1 <= d ->
  shape x = [M; d] -> shape x_true = [d] ->
  exists r, dist_to_min_success nrm tol x_true x = Ok r /\
    (forall m, m < M ->
       (In m (sidx r) <-> fltb (nrm (map (fun j => fsub (get x_true [j]) (get x [m; j])) (seq 0 d))) tol = true)) /\
    (forall m, In m (sidx r) -> m < M) /\ NoDup (sidx r) /\
    num r = length (sidx r) /\ (rate r * INR M = INR (num r))%R.
Proof. intros K O. exact dist_spec. Qed.
Print Assumptions C62_distance.

Example C62_case : exists s log, exec zc1 s log /\ s_M s = 2 /\ exists r,
  evaluation (Some [fun s => p <- value_success zc1 (Fin 10%Z) s ;; Ok (sidx (fst p)); fun s => Ok [1; 0; 1]]) s = Ok r /\
  sidx r = [1] /\ num r = 1 /\ (rate r * INR 2 = 1)%R.
Proof.
  run_script zscript1. split; [reflexivity |]. eexists. split; [cbn; reflexivity |].
  split; [reflexivity |]. split; [reflexivity |]. cbn. lra.
Qed.

(** C73. ensemble_update_resampling keeps selecting a terminated run, and the call moves its particles. *)
Theorem C73_terminated_run_refuted : forall K V (O : KOps K) (OO : KOrd K) (c : cfg K V) (s : st K V) log (o : orc V) s' m row thresh norm1 vzero amp z b,
  exec c s log -> plain c (s_N s) -> perms_valid o s -> step c o s = Ok s' -> ~ In m (s_active s) ->
  nth_error (s_x s) m = Some row -> map (c_pp c) row = row ->
  fltb (c_norm c (map2 (c_vsub c) row row)) thresh = true ->
  ~ In m (s_active s') /\ nth_error (s_x s') m = Some row /\
  exists r s'' k, resampling_call c norm1 vzero amp false z (mkrsm [REns thresh] None b) s' = Ok (r, s'') /\
    s_active s'' = s_active s' /\
    nth_error (s_x s'') m = Some (mapi (fun j v => c_vadd c v (c_vscale c amp (z k j))) row).
Proof. intros K V O OO. exact ens_moves_terminated. Qed.
Print Assumptions C73_terminated_run_refuted.

Example C73_case : exists s log, exec zc1 s log /\ s_active s = [0] /\
  exists s' r s'', perms_valid (zorc 3 [0; 2; 1]) s /\ step zc1 (zorc 3 [0; 2; 1]) s = Ok s' /\
    nth_error (s_x s) 1 = nth_error (s_x s') 1 /\
    resampling_call zc1 zabs1 (fun _ => 0%Z) (Fin 1%Z) false (fun _ _ => 7%Z) (mkrsm [REns (Fin 1%Z)] None None) s' = Ok (r, s'') /\
    r_num r = Some [0; 1] /\
    option_map (map (Z.add 7)) (nth_error (s_x s') 1) = nth_error (s_x s'') 1.
Proof. exact ens_example. Qed.

(** C74. The tracked best consensus indexes the consensus points of the active runs by the numbers of the
    runs: run m gets the point of the m-th active run ... *)
Theorem C74_best_consensus_refuted : forall K V (O : KOps K) (c : cfg K V) (s : st K V) cpt m v k,
  s_cons s = Some cpt -> nth_error cpt m = Some [v] -> m < s_M s -> nth_error (s_active s) m = Some k ->
  exists be s', track_best_consensus c [m] s None = Ok (Some (cpt, be), s') /\
    nth_error be m = Some [c_f c v] /\ run_point s k v.
Proof. intros K V O. exact best_consensus_wrong_run. Qed.
Print Assumptions C74_best_consensus_refuted.

(** ... and a selected run beyond the number of active runs makes the call raise. *)
Theorem C74_best_consensus_raises : forall K V (O : KOps K) (c : cfg K V) (s : st K V) cpt idx b m, s_cons s = Some cpt ->
  In m idx -> length cpt <= m -> track_best_consensus c idx s b = Err IndexError.
Proof. intros K V O. exact best_consensus_raises. Qed.
Print Assumptions C74_best_consensus_raises.

Example C74_case : exists s log, exec zc3 s log /\ s_active s = [1; 2] /\ s_M s = 3 /\
  s_cons s = Some [[50]; [80]]%Z /\ run_point s 1 50%Z /\ run_point s 2 80%Z /\
  track_best_consensus zc3 [2] s None = Err IndexError /\
  exists s', track_best_consensus zc3 [1] s None = Ok (Some ([[50]; [80]]%Z, [[PInf]; [Fin 6400%Z]; [PInf]]), s') /\
    s_nfe s' = [2; 5; 5] /\ s_nfe s = [2; 4; 4].
Proof. exact bestc_example. Qed.

(** While all runs are active the record is right: for every run the lowest objective value of the
    consensus points at the calls that selected it, and the point where it was attained. *)
Theorem C74_best_consensus_all_active : forall K V (O : KOps K) (OO : KOrd K) (c : cfg K V) M (l : list (list nat * st K V)),
  l <> [] -> Forall (all_runs_active M) l ->
  exists bc be, track_calls c l None = Ok (Some (bc, be)) /\
    forall m, m < M -> exists v e, nth_error bc m = Some [v] /\ nth_error be m = Some [e] /\
      (forall w, resampled_at l m w -> fltb (c_f c w) e = false) /\
      (e = PInf \/ (resampled_at l m v /\ c_f c v = e)).
Proof. intros K V O OO. exact best_consensus_minimum. Qed.
Print Assumptions C74_best_consensus_all_active.

Example C74_all_active_case : exists s1 log, exec zc4 s1 log /\
  exists s2 s3 s4, step zc4 (zorc (-20) [0; 1]) s1 = Ok s2 /\ step zc4 (zorc 100 [0; 1]) s2 = Ok s3 /\
    step zc4 (zorc 0 [0; 1]) s3 = Ok s4 /\
    Forall (all_runs_active 2) [([0; 1], s1); ([0], s3); ([0; 1], s4)] /\
    s_cons s1 = Some [[50]; [30]]%Z /\ s_cons s3 = Some [[30]; [10]]%Z /\ s_cons s4 = Some [[130]; [110]]%Z /\
    track_calls zc4 [([0; 1], s1); ([0], s3); ([0; 1], s4)] None = Ok (Some ([[30]; [30]]%Z, [[Fin 900%Z]; [Fin 900%Z]])).
Proof. exact track_example. Qed.
