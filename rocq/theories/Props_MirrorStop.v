(** * Properties: runs of MirrorCBO in consensus (C130) *)
From Coq Require Import List Arith Bool Reals.
From Verif Require Import Scalar Np State Pdyn Exec RVec ConsSpec Cbo CboSpec MemSpec Variant VarSpec ProxSpec ExCbo ExConRun ConRunSpec MirrorStopSpec MirrorStop MirrorSpeed ExMirrorStop.
Import ListNotations.
Open Scope R_scope.

(** C130. Once the positions of a run of MirrorCBO coincide (after a step, noise that vanishes there), neither its positions nor its dual points ever change again:
    for every mirror map, post-processing, objective, batch setting and all draws, whether the run is still active or not. *)
Theorem C130_mirror_absorbing : forall gc gr f k pp b partial cat ks save la dt sg d m p n s y log s' y', let c := cbo_cfg f k pp NoCorr b partial cat ks save in
  k <> NConst -> finite_obj d f -> vexec (mirror_inner gc) (mirror_attr gr) c n (s, y) log -> n <> 0%nat -> finite_alpha s -> parameters la dt sg s ->
  run_in (fun q => q = p) s m d -> finite_dual d y m -> later_v (mirror_inner gc) c d (s, y) (s', y') ->
  nth_error y' m = nth_error y m /\ nth_error (s_x s') m = nth_error (s_x s) m.
Proof. exact mirror_stop. Qed.
Print Assumptions C130_mirror_absorbing.
Example C130_mirror_absorbing_case : exists s y log s' y', let c := kc sqf NIso in let inner := mirror_inner to_zero in
  finite_obj 1 sqf /\ vexec inner (mirror_attr (fun v => v)) c 1 (s, y) log /\ finite_alpha s /\ parameters 1 (/ 100) 0 s /\ run_in (fun q => q = [0]) s 0 1 /\ finite_dual 1 y 0 /\
  cell y 0 0 <> cell y 0 1 /\ s_active s = [0]%nat /\ vstep inner c korc (s, y) = Ok (s', y') /\ later_v inner c 1 (s, y) (s', y').
Proof. exact mirror_stop_case. Qed.

(** C130. Therefore agreement of the positions does not bring the dual points together: with a mirror map that projects, they may differ for ever in a run that is still active. *)
Theorem C130_dual_agreement_refuted : exists s y log, let c := kc sqf NIso in let inner := mirror_inner to_zero in
  vexec inner (mirror_attr (fun v => v)) c 1 (s, y) log /\ run_in (fun q => q = [0]) s 0 1 /\ s_active s = [0]%nat /\
  forall s' y', later_v inner c 1 (s, y) (s', y') -> run_in (fun q => q = [0]) s' 0 1 /\ cell y' 0 0 <> cell y' 0 1.
Proof. exact mirror_stop_apart. Qed.
Print Assumptions C130_dual_agreement_refuted.

(** C130. How fast the dual points can come back: if the mirror map and the post-processing put coordinate i of every position between lo and hi,
    then without noise j steps move this coordinate of a dual point by at most j lamda dt (hi - lo), however far outside it is. *)
Theorem C130_dual_speed : forall (gc gr : vec -> vec) f k (pp : vec -> vec) b partial cat ks save la dt d i lo hi m n (s : st R vec) (y : arr vec) log j s' y', let c := cbo_cfg f k pp NoCorr b partial cat ks save in
  finite_obj d f -> (forall v, length v = d -> exists q, pp (gc (floats v)) = floats q /\ length q = d /\ lo <= coord i q <= hi) ->
  vexec (mirror_inner gc) (mirror_attr gr) c n (s, y) log -> n <> 0%nat -> finite_alpha s -> parameters la dt 0 s -> 0 <= la -> finite_dual d y m ->
  travels (mirror_inner gc) c d (s, y) j (s', y') ->
  forall kk v, cell y m kk = Some (floats v) -> length v = d -> exists v', cell y' m kk = Some (floats v') /\ length v' = d /\ Rabs (coord i v' - coord i v) <= INR j * (la * dt * (hi - lo)).
Proof. exact mirror_speed. Qed.
Print Assumptions C130_dual_speed.
(** the dual point t meets the condition of C130_stuck_at_boundary for j up to 145 *)
Example C130_dual_speed_case : forall j, exists s y log s' y', let c := kc sqf NIso in let inner := mirror_inner to_box in
  vexec inner (mirror_attr (fun v => v)) c 1 (s, y) log /\ finite_alpha s /\ parameters 1 (/ 100) 0 s /\ finite_dual 1 y 0 /\ travels inner c 1 (s, y) j (s', y') /\
  exists t, cell y 0 2 = Some (floats [t]) /\ 39 / 10 <= t.
Proof. exact mirror_speed_case. Qed.
Example C130_dual_speed_box : forall v, length v = 1%nat -> exists q, to_box (floats v) = floats q /\ length q = 1%nat /\ -1 <= coord 0 q <= 1 /\ (1 <= coord 0 v -> coord 0 q = 1).
Proof. exact to_box_lands. Qed.

(** C130. Hence a particle whose dual point lies far beyond the upper end stays at this end for many steps, whatever the objective is. *)
Theorem C130_stuck_at_boundary : forall (gc gr : vec -> vec) f k (pp : vec -> vec) b partial cat ks save la dt d i lo hi m n (s : st R vec) (y : arr vec) log j s' y', let c := cbo_cfg f k pp NoCorr b partial cat ks save in
  finite_obj d f -> (forall v, length v = d -> exists q, pp (gc (floats v)) = floats q /\ length q = d /\ lo <= coord i q <= hi /\ (hi <= coord i v -> coord i q = hi)) ->
  vexec (mirror_inner gc) (mirror_attr gr) c n (s, y) log -> n <> 0%nat -> finite_alpha s -> parameters la dt 0 s -> 0 <= la -> finite_dual d y m ->
  travels (mirror_inner gc) c d (s, y) j (s', y') ->
  forall kk v, cell y m kk = Some (floats v) -> length v = d -> hi + INR j * (la * dt * (hi - lo)) <= coord i v -> exists x, cell (s_x s') m kk = Some (floats x) /\ coord i x = hi.
Proof. exact mirror_stuck. Qed.
Print Assumptions C130_stuck_at_boundary.
