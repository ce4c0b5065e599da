(** * Properties: live plotting (C112) *)
From Coq Require Import String List Arith Bool ZArith Reals Lia Lra.
From Verif Require Import Scalar Np State Pdyn Exec TermSpec RVec ConsSpec Cbo CboSpec HistSpec Plotting PlotFacts LivePlot LiveFacts LiveReal ExZ ExBatch ExHist ExUtil ExCbo SimSpec MemSymSpec ExLive.
Import ListNotations.
Open Scope string_scope.
Open Scope nat_scope.
Open Scope list_scope.

(** C112. While every run is active, the picture after a step shows the particles of the chosen run before the step, the Gibbs consensus point of
    the (mini-)batch, and arrows from particles of that run whose tips are exactly this consensus point. *)
Theorem C112_arrows_point_at_consensus : forall (f : vec -> fl R) k (pp : vec -> vec) b partial cat ks save s log (o : orc vec) s' d num_run xr a,
  let c := cbo_cfg f k pp NoCorr b partial cat ks save in
  exec c s log -> perms_valid o s -> step c o s = Ok s' -> finite_obj d f ->
  length (s_active s) = s_M s -> nth_error (s_x s) num_run = Some xr -> (forall v, In v xr -> real_point d v) -> nth_error (s_alpha s) num_run = Some [Fin a] ->
  exists q tails vs, live_update negate num_run true true s' = Ok (mklive xr (Some [floats q]) (Some (tails, vs))) /\
    length tails = (if partial then b else s_N s) /\ length vs = length tails /\ (forall p, In p tails -> In p xr) /\ (b = s_N s -> tails = xr) /\
    (forall p v, In (p, v) (combine tails vs) -> map2 fadd p v = floats q) /\
    exists X, length X = b /\ (forall x, In x X -> In (floats x) xr) /\ (b = s_N s -> map floats X = xr) /\ q = gibbs_point a (map f (map floats X)) d X.
Proof. exact live_tips. Qed.
Print Assumptions C112_arrows_point_at_consensus.
Example C112_arrows_example : exists s log s', exec lcfg s log /\ constructed lcfg s /\ perms_valid corc s /\ step lcfg corc s = Ok s' /\ finite_obj 2 ExCbo.sqf /\ length (s_active s) = s_M s /\ s_N s = 3 /\
  nth_error (s_x s) 0 = Some (map floats cX) /\ (forall v, In v (map floats cX) -> real_point 2 v) /\ nth_error (s_alpha s) 0 = Some [Fin 5%R].
Proof. exact ex_tips. Qed.

(** C112. For any set of active runs: the particles drawn for num_run = k are those of run k, but consensus point and arrows are those of the k-th active run m. *)
Theorem C112_picture_mixes_runs : forall K V (KO : KOps K) (vneg : V -> V) (c : cfg K V) s log (o : orc V) s' k m xk xm a,
  exec c s log -> perms_valid o s -> one_consensus_point c -> c_corr c = NoCorr -> step c o s = Ok s' ->
  nth_error (s_active s) k = Some m -> nth_error (s_x s) k = Some xk -> nth_error (s_x s) m = Some xm -> nth_error (s_alpha s) m = Some [a] ->
  exists xb cp tails, (forall v, In v xb -> In v xm) /\ length xb = c_bsize c /\ c_ccrow c (map (c_f c) xb) xb a = [cp] /\
    (forall v, In v tails -> In v xm) /\ length tails = (if c_partial c then c_bsize c else s_N s) /\
    (c_bsize c = s_N s -> xb = xm /\ tails = xm) /\ (c_partial c = true -> tails = xb) /\ (c_partial c = false -> tails = xm) /\
    live_update vneg k true true s' = Ok (mklive xk (Some [cp]) (Some (tails, map (fun p => vneg (c_vsub c p cp)) tails))).
Proof. exact @live_frame. Qed.
Print Assumptions C112_picture_mixes_runs.

(** C112. When at most num_run runs are still active, plotting consensus or drift raises an IndexError. *)
Theorem C112_picture_raises : forall K V (KO : KOps K) (vneg : V -> V) (c : cfg K V) s log (o : orc V) s' num_run pd,
  exec c s log -> perms_valid o s -> one_consensus_point c -> c_corr c = NoCorr -> step c o s = Ok s' ->
  length (s_active s) <= num_run -> live_update vneg num_run true pd s' = Err IndexError /\ live_update vneg num_run pd true s' = Err IndexError.
Proof. exact @live_raises. Qed.
Print Assumptions C112_picture_raises.

(** C112, refuted: "the picture of a run shows the consensus point of this run".  Run 0 of two has stopped: the picture for run 0 shows the
    consensus point and the arrows of run 1, and the picture for run 1 raises although run 1 is still moving. *)
Theorem C112_picture_of_run_refuted : exists s log s', exec zcp s log /\ perms_valid (zorc (-2) [1; 2; 0]) s /\ one_consensus_point zcp /\ c_corr zcp = NoCorr /\ step zcp (zorc (-2) [1; 2; 0]) s = Ok s' /\
  s_M s = 2 /\ s_active s = [1] /\ s_x s = [[-1; 0; 1]; [48; 49; 50]]%Z /\
  live_update Z.opp 0 true true s' = Ok (mklive [-1; 0; 1]%Z (Some [48]%Z) (Some ([48; 49; 50]%Z, [0; -1; -2]%Z))) /\
  live_update Z.opp 1 true true s' = Err IndexError.
Proof. exact ex_other. Qed.
Print Assumptions C112_picture_of_run_refuted.

(** C112. The picture drawn before the first step shows the particles also as consensus points, and one arrow per particle, from it to the origin. *)
Theorem C112_first_picture : forall K V (KO : KOps K) (vneg : V -> V) (c : cfg K V) (s : st K V) num_run xr, constructed c s -> nth_error (s_x s) num_run = Some xr ->
  live_init vneg num_run true true s = Ok (mklive xr (Some xr) (Some (xr, map vneg xr))) /\ length xr = s_N s.
Proof. exact @live_first. Qed.
Print Assumptions C112_first_picture.

(** C112. With save_int = 1 the plot made from the history shows the same pictures as live plotting. *)
Theorem C112_history_shows_same : forall K V (KO : KOps K) (vneg : V -> V) (c : cfg K V) x0 names pairs s num_run freq, tracked_run c x0 names 1 pairs s ->
  In "x" names -> In "consensus" names -> In "drift" names -> pairs <> [] -> 1 <= freq -> num_run < length x0 ->
  (forall a b, In (a, b) pairs -> num_run < length (s_x b) /\
     (exists cpt, s_cons b = Some cpt /\ num_run < length cpt) /\ (exists d, s_drift b = Some d /\ num_run < length d)) ->
  exists fs, plot_history num_run freq true true (s_hist s) = Ok fs /\
    map fr_it fs = filter (fun j => (j mod freq =? 0)%nat) (seq 0 (length pairs)) /\
    Forall (fun f => exists a b, nth_error pairs (fr_it f) = Some (a, b) /\
      live_update vneg num_run true false b = Ok (mklive (fr_x f) (fr_c f) None) /\
      forall l, live_update vneg num_run true true b = Ok l -> lv_x l = fr_x f /\ lv_c l = fr_c f /\ option_map snd (lv_d l) = option_map (map vneg) (fr_d f)) fs.
Proof. exact @live_history. Qed.
Print Assumptions C112_history_shows_same.
Example C112_history_example : exists pairs s fs, tracked_run zcp zx1 ["x"; "consensus"; "drift"] 1 pairs s /\ length pairs = 3 /\
  (forall a b, In (a, b) pairs -> 1 < length (s_x b) /\
     (exists cpt, s_cons b = Some cpt /\ 1 < length cpt) /\ (exists d, s_drift b = Some d /\ 1 < length d)) /\
  plot_history 1 2 true true (s_hist s) = Ok fs /\ map fr_it fs = [0; 2].
Proof. exact plot_example. Qed.

(** C112, refuted for larger save_int: the picture from the history that shows the consensus point of the third step shows other particles than the live picture. *)
Theorem C112_history_shows_same_refuted : exists pairs s a b fs l, tracked_run zcp zx1 ["x"; "consensus"; "drift"] 2 pairs s /\ length pairs = 3 /\ nth_error pairs 2 = Some (a, b) /\
  plot_history 1 1 true true (s_hist s) = Ok fs /\ live_update Z.opp 1 true true b = Ok l /\
  exists f, nth_error fs 1 = Some f /\ fr_c f = lv_c l /\ fr_x f <> lv_x l.
Proof. exact ex_history. Qed.
Print Assumptions C112_history_shows_same_refuted.
