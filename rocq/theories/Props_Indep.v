(** * C08: one array of M runs equals M separate runs *)
From Coq Require Import List Arith ZArith.
From Verif Require Import Scalar Np State Pdyn Exec TermSpec IndepSpec IndepFacts ExZ ExBatch.
Import ListNotations.

(** C08. A dynamic constructed for run m alone holds the data of run m. *)
Theorem C08_construction :
  forall (K V : Type) (O : KOps K) (c : cfg K V) x0 row m chk al sg la dt perm0 perm1 names extra save s t,
  is_array (length x0) (shape1 x0) x0 -> nth_error x0 m = Some row -> perm1 0 = perm0 m ->
  init c x0 chk al sg la dt perm0 names extra save = Ok s ->
  init c [row] chk al sg la dt perm1 names extra save = Ok t ->
  mirrors s m t /\ s_active t = [0] /\ In m (s_active s).
Proof. exact @init_mirrors. Qed.
Print Assumptions C08_construction.

(** C08. One step, with the same draws: both succeed and the data stays equal, consensus and
    drift included. The other runs, active or not, do not matter. *)
Theorem C08_step :
  forall (K V : Type) (O : KOps K) (c : cfg K V) (s : st K V) log m t logt k (o o' : orc V),
  exec c s log -> exec c t logt -> plain c (s_N s) -> mirrors s m t ->
  nth_error (s_active s) k = Some m -> s_active t = [0] ->
  perms_valid o s -> o_perm o' 0 = o_perm o m -> (forall n, o_z o' 0 n = o_z o k n) ->
  exists s' t', step c o s = Ok s' /\ step c o' t = Ok t' /\ perms_valid o' t /\ mirrors s' m t' /\
    row_of (s_cons t') 0 = row_of (s_cons s') k /\ row_of (s_drift t') 0 = row_of (s_drift s') k.
Proof. exact @step_mirrors. Qed.
Print Assumptions C08_step.

(** C08. Termination checks agree: run m is stopped in the array exactly when it is stopped
    on its own. *)
Theorem C08_termination :
  forall (K V : Type) (O : KOps K) (c : cfg K V) s log m t logt b s2 bt t2,
  exec c s log -> exec c t logt -> mirrors s m t -> Forall builtin (c_crit c) ->
  terminate c s = Ok (b, s2) -> terminate c t = Ok (bt, t2) ->
  mirrors s2 m t2 /\ (In m (s_active s2) <-> s_active t2 = [0]) /\ (~ In m (s_active s2) <-> s_active t2 = []) /\
  (bt = true <-> ~ In m (s_active s2)).
Proof. exact @term_agrees. Qed.
Print Assumptions C08_termination.

(** C08. A whole optimisation: after n iterations of the loop of optimize for M runs, the loop
    for run m alone either is at the same data after n iterations, or stopped earlier with
    the same energies, best pair, evaluation count and positions. *)
Theorem C08_optimize :
  forall (K V : Type) (O : KOps K) (OL : KOrd K) (A : KAddMono K) (c : cfg K V) sched s log m t logt n s',
  exec c s log -> exec c t logt -> mirrors s m t ->
  no_nan c -> plain c (s_N s) ->
  (forall v, c_pp c (c_pp c v) = c_pp c v) ->
  (forall row, c_norm c (map2 (c_vsub c) row row) = Fin k0) ->
  Forall positive_tol (c_crit c) ->
  param_sched sched -> runwise_sched sched -> (forall q q', sched q = Ok q' -> nonneg_dt q') -> nonneg_dt s ->
  loop c sched s n s' ->
  (exists t', loop c sched t n t' /\ mirrors s' m t') \/
  (exists n' t' t2, n' < n /\ loop c sched t n' t' /\ terminate c t' = Ok (true, t2) /\ same_result c s' m t').
Proof. exact @loop_mirrors. Qed.
Print Assumptions C08_optimize.

(** Two runs; run 1 on its own; three iterations, after two of which run 1 has stopped. *)
Example C08_example : runwise_sched zsched /\
  exists s t, exec zc1 s [] /\ exec zc1 t [] /\ s_M s = 2 /\ mirrors s 1 t /\
  s_x t = [[3; 2; -8]]%Z /\ In 1 (s_active s) /\ s_active t = [0] /\
  no_nan zc1 /\ plain zc1 (s_N s) /\ Forall positive_tol (c_crit zc1) /\ nonneg_dt s /\
  exists s', loop zc1 zsched s 3 s'.
Proof. exact indep_example. Qed.
