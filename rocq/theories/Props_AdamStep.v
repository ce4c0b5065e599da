(** * Properties: how far a step of AdamCBO goes (C105) *)
From Coq Require Import String List Arith Bool Lia Reals Lra.
From Verif Require Import Scalar Np NpFacts State Pdyn PdynStep Exec MemSpec Memory Variant VarFacts RVec RVecFacts ConsSpec Consensus Cbo CboSpec
  AdamSpec AdamFacts AdamR AdamStepSpec AdamStep ExAdam ExAdamStep.
Import ListNotations.
Open Scope R_scope.

(** C105. The step of a particle of the batch, at every reachable state with finite drifts (us: the earlier ones, u: the present one):
    x - (lamda * quotient of the corrected moments - sigma * noise), per coordinate. *)
Theorem C105_step : forall f k pp co bs partial cat ks save b0 b1 eps d, 0 <= b0 < 1 -> 0 <= b1 < 1 -> 0 < eps ->
  let c := cbo_cfg f k pp co bs partial cat ks save in
  let inner := adam_inner np_sq np_quot (mkapar (Fin b0) (Fin b1) (Fin eps)) in
  forall la dt sg o s m v s' m' v' D r n x us u, adam_exec inner (adam_attr (floats (repeat 0 d))) c (s, (m, v)) D ->
  perms_valid o s -> s_active s <> [] -> vstep inner c o (s, (m, v)) = Ok (s', (m', v')) ->
  (r < s_M s)%nat -> (n < s_N s)%nat -> parameters la dt sg s -> finite_draws d o ->
  cell (s_x s) r n = Some (floats x) -> length x = d -> drift_at s s' r n <> [] ->
  D r n ++ drift_at s s' r n = map floats (us ++ [u]) -> (forall w, In w (us ++ [u]) -> length w = d) ->
  exists j i z x1, nth_error (s_active s) j = Some r /\ nth_error (run_selp c o s r) i = Some n /\
    (forall i', (i < i')%nat -> nth_error (run_selp c o s r) i' <> Some n) /\ o_z o j i = floats z /\ length z = d /\
    length x1 = d /\ cell (s_x s') r n = Some (pp (floats x1)) /\
    forall a, (a < d)%nat -> coord a x1 = coord a x - (la * adam_quotient b0 b1 eps (s_it s) (us ++ [u]) a - sg * coord a (rnoise k dt u z)).
Proof. exact adam_exact. Qed.
Print Assumptions C105_step.

(** C105. Apart from the noise no coordinate moves by more than |lamda| * sqrt(b1 / ((1 - b1) (b1 - b0^2))): whatever the drifts, the
    batches missed and the resets in between. *)
Theorem C105_bounded : forall f k pp co bs partial cat ks save b0 b1 eps d, 0 <= b0 < 1 -> 0 <= b1 < 1 -> 0 < eps ->
  let c := cbo_cfg f k pp co bs partial cat ks save in
  let inner := adam_inner np_sq np_quot (mkapar (Fin b0) (Fin b1) (Fin eps)) in
  forall la dt sg o s m v s' m' v' D r n x us u, 0 < b1 -> b0 * b0 < b1 ->
  adam_exec inner (adam_attr (floats (repeat 0 d))) c (s, (m, v)) D -> perms_valid o s -> s_active s <> [] ->
  vstep inner c o (s, (m, v)) = Ok (s', (m', v')) -> (r < s_M s)%nat -> (n < s_N s)%nat -> parameters la dt sg s -> finite_draws d o ->
  cell (s_x s) r n = Some (floats x) -> length x = d -> drift_at s s' r n <> [] ->
  D r n ++ drift_at s s' r n = map floats (us ++ [u]) -> (forall w, In w (us ++ [u]) -> length w = d) ->
  exists j i z x1, nth_error (s_active s) j = Some r /\ nth_error (run_selp c o s r) i = Some n /\ o_z o j i = floats z /\
    length x1 = d /\ cell (s_x s') r n = Some (pp (floats x1)) /\
    forall a, (a < d)%nat -> Rabs (coord a x1 - coord a x - sg * coord a (rnoise k dt u z)) <= Rabs la * adam_gain b0 b1.
Proof. exact adam_displacement. Qed.
Print Assumptions C105_bounded.

(** C105. In the first step the particle moves by lamda * u/(|u| + eps) per coordinate, u = x - consensus: almost lamda, however far
    away the consensus point is (the factors b0, b1 and the number of particles do not matter). *)
Theorem C105_first_step : forall f k pp co bs partial cat ks save b0 b1 eps d, 0 <= b0 < 1 -> 0 <= b1 < 1 -> 0 < eps ->
  let c := cbo_cfg f k pp co bs partial cat ks save in
  let inner := adam_inner np_sq np_quot (mkapar (Fin b0) (Fin b1) (Fin eps)) in
  forall la dt sg o s m v s' m' v' D r n x xr xb al cs, adam_exec inner (adam_attr (floats (repeat 0 d))) c (s, (m, v)) D -> perms_valid o s ->
  vstep inner c o (s, (m, v)) = Ok (s', (m', v')) -> (r < s_M s)%nat -> (n < s_N s)%nat -> parameters la dt sg s -> finite_draws d o ->
  cell (s_x s) r n = Some (floats x) -> length x = d -> In r (s_active s) -> In n (run_selp c o s r) ->
  nth_error (s_x s) r = Some xr -> nth_error (s_alpha s) r = Some [al] -> takeM xr (run_sel c o s r) = Ok xb ->
  cc_default (map f xb) xb al = [floats cs] -> length cs = d -> s_it s = 0%nat -> D r n = [] ->
  exists j i z x1, nth_error (s_active s) j = Some r /\ nth_error (run_selp c o s r) i = Some n /\ o_z o j i = floats z /\
    length x1 = d /\ cell (s_x s') r n = Some (pp (floats x1)) /\
    forall a, (a < d)%nat -> coord a x1 =
      coord a x - la * ((coord a x - coord a cs) / (Rabs (coord a x - coord a cs) + eps)) + sg * coord a (rnoise k dt (vsub x cs) z).
Proof. exact adam_first. Qed.
Print Assumptions C105_first_step.

(** C105. So without noise the step does not always contract towards the consensus point, however small dt: a coordinate ends farther from
    it exactly if it was within lamda/2 - eps of it (and not at it). *)
Theorem C105_contraction_refuted : forall f k pp co bs partial cat ks save b0 b1 eps d, 0 <= b0 < 1 -> 0 <= b1 < 1 -> 0 < eps ->
  let c := cbo_cfg f k pp co bs partial cat ks save in
  let inner := adam_inner np_sq np_quot (mkapar (Fin b0) (Fin b1) (Fin eps)) in
  forall la dt o s m v s' m' v' D r n x xr xb al cs, adam_exec inner (adam_attr (floats (repeat 0 d))) c (s, (m, v)) D -> perms_valid o s ->
  vstep inner c o (s, (m, v)) = Ok (s', (m', v')) -> (r < s_M s)%nat -> (n < s_N s)%nat -> parameters la dt 0 s -> 0 <= la -> finite_draws d o ->
  cell (s_x s) r n = Some (floats x) -> length x = d -> In r (s_active s) -> In n (run_selp c o s r) ->
  nth_error (s_x s) r = Some xr -> nth_error (s_alpha s) r = Some [al] -> takeM xr (run_sel c o s r) = Ok xb ->
  cc_default (map f xb) xb al = [floats cs] -> length cs = d -> s_it s = 0%nat -> D r n = [] ->
  exists x1, length x1 = d /\ cell (s_x s') r n = Some (pp (floats x1)) /\
    forall a, (a < d)%nat -> (Rabs (coord a x - coord a cs) < Rabs (coord a x1 - coord a cs) <->
       coord a x <> coord a cs /\ Rabs (coord a x - coord a cs) < la / 2 - eps).
Proof. exact adam_overshoot. Qed.
Print Assumptions C105_contraction_refuted.

(** C105. Without noise the time step plays no role: positions and moments after the step are the same for every dt. *)
Theorem C105_dt_refuted : forall f k pp co bs partial cat ks save b0 b1 eps d, 0 <= b0 < 1 -> 0 <= b1 < 1 -> 0 < eps ->
  let c := cbo_cfg f k pp co bs partial cat ks save in
  let inner := adam_inner np_sq np_quot (mkapar (Fin b0) (Fin b1) (Fin eps)) in
  forall la dt dt2 o s m v s1 m1 v1 s2 m2 v2 D r n x us, adam_exec inner (adam_attr (floats (repeat 0 d))) c (s, (m, v)) D ->
  perms_valid o s -> s_active s <> [] ->
  vstep inner c o (s, (m, v)) = Ok (s1, (m1, v1)) -> vstep inner c o (set_dt (Fin dt2) s, (m, v)) = Ok (s2, (m2, v2)) ->
  (r < s_M s)%nat -> (n < s_N s)%nat -> parameters la dt 0 s -> 0 <= dt2 -> finite_draws d o ->
  cell (s_x s) r n = Some (floats x) -> length x = d ->
  D r n ++ drift_at s s1 r n = map floats us -> (forall w, In w us -> length w = d) ->
  cell (s_x s2) r n = cell (s_x s1) r n /\ cell m2 r n = cell m1 r n /\ cell v2 r n = cell v1 r n.
Proof. exact adam_no_dt. Qed.
Print Assumptions C105_dt_refuted.

(** C105. A particle that sits at the consensus point of its batch is at rest exactly in the coordinates in which the weighted sum of
    its past drifts is zero: consensus states are not absorbing, unlike for CBO (C36). *)
Theorem C105_absorbing_refuted : forall f k pp co bs partial cat ks save b0 b1 eps d, 0 <= b0 < 1 -> 0 <= b1 < 1 -> 0 < eps ->
  let c := cbo_cfg f k pp co bs partial cat ks save in
  let inner := adam_inner np_sq np_quot (mkapar (Fin b0) (Fin b1) (Fin eps)) in
  forall la dt sg o s m v s' m' v' D r n x us xr xb al, adam_exec inner (adam_attr (floats (repeat 0 d))) c (s, (m, v)) D -> perms_valid o s ->
  vstep inner c o (s, (m, v)) = Ok (s', (m', v')) -> (r < s_M s)%nat -> (n < s_N s)%nat -> parameters la dt sg s -> finite_draws d o ->
  cell (s_x s) r n = Some (floats x) -> length x = d -> In r (s_active s) -> In n (run_selp c o s r) ->
  nth_error (s_x s) r = Some xr -> nth_error (s_alpha s) r = Some [al] -> takeM xr (run_sel c o s r) = Ok xb ->
  cc_default (map f xb) xb al = [floats x] -> D r n = map floats us -> (forall w, In w us -> length w = d) -> k <> NConst ->
  exists x1, length x1 = d /\ cell (s_x s') r n = Some (pp (floats x1)) /\
    (forall a, (a < d)%nat -> la <> 0 -> b0 <> 0 -> (coord a x1 <> coord a x <-> exp_weighted b0 (map (coord a) us) <> 0)).
Proof. exact adam_momentum. Qed.
Print Assumptions C105_absorbing_refuted.

(** two particles at 0 and 2, consensus point 1, any lamda: the start of a run (for lamda = 8 both are within lamda/2 - eps of it) *)
Example C105_first_case : forall la, exists s m v D s' m' v', adam_exec jinner aattr ac (s, (m, v)) D /\ perms_valid aorc s /\
  vstep jinner ac aorc (s, (m, v)) = Ok (s', (m', v')) /\ (0 < s_M s)%nat /\ (0 < s_N s)%nat /\ parameters la 1 0 s /\ finite_draws 1 aorc /\
  cell (s_x s) 0 0 = Some (floats [0]) /\ In 0%nat (s_active s) /\ In 0%nat (run_selp ac aorc s 0) /\
  nth_error (s_x s) 0 = Some (map floats [[0]; [2]]) /\ nth_error (s_alpha s) 0 = Some [Fin 0] /\
  takeM (map floats [[0]; [2]]) (run_sel ac aorc s 0) = Ok (map floats [[0]; [2]]) /\
  cc_default (map (fun _ => Fin 0) (map floats [[0]; [2]])) (map floats [[0]; [2]]) (Fin 0) = [floats [1]] /\
  s_it s = 0%nat /\ D 0%nat 0%nat = [] /\ drift_at s s' 0 0 = [floats [-1]].
Proof. exact jfirst_case. Qed.
(** lamda = 2: after the first step both particles are at the consensus point 1, with non-zero past drifts; the next step moves them *)
Example C105_momentum_case : exists s m v D s' m' v', adam_exec jinner aattr ac (s, (m, v)) D /\ perms_valid aorc s /\
  vstep jinner ac aorc (s, (m, v)) = Ok (s', (m', v')) /\ (0 < s_M s)%nat /\ (0 < s_N s)%nat /\ parameters 2 1 0 s /\ finite_draws 1 aorc /\
  cell (s_x s) 0 0 = Some (floats [1]) /\ In 0%nat (s_active s) /\ In 0%nat (run_selp ac aorc s 0) /\
  nth_error (s_x s) 0 = Some (map floats [[1]; [1]]) /\ nth_error (s_alpha s) 0 = Some [Fin 0] /\
  takeM (map floats [[1]; [1]]) (run_sel ac aorc s 0) = Ok (map floats [[1]; [1]]) /\
  cc_default (map (fun _ => Fin 0) (map floats [[1]; [1]])) (map floats [[1]; [1]]) (Fin 0) = [floats [1]] /\
  D 0%nat 0%nat = map floats [[-1]] /\ exp_weighted (/ 2) (map (coord 0) [[-1]]) <> 0 /\ drift_at s s' 0 0 = [floats [0]].
Proof. exact jmomentum_case. Qed.
