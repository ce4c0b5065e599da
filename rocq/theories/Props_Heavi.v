(** * C12, C69: counters and failures of the Heaviside correction *)
From Coq Require Import String List Arith ZArith.
From Verif Require Import Scalar Np State Pdyn Exec HeaviFacts ExZ ExHist.
Import ListNotations.
Open Scope nat_scope.

(** C12. One step evaluates M * (b + 1) points but the M counters grow by M * (b + M) in
    total, so they stop agreeing with the number of evaluations iff M > 1. *)
Theorem C12_heaviside_counters_refuted :
  forall (K V : Type) (O : KOps K) (c : cfg K V) fac s log (o : orc V) s',
  exec c s log -> perms_valid o s -> c_corr c = Heavi fac -> one_consensus_point c -> s_active s <> [] ->
  step c o s = Ok s' ->
  s_fcalls s' = s_fcalls s + s_M s * (c_bsize c + 1) /\
  (forall m n, nth_error (s_nfe s) m = Some n -> nth_error (s_nfe s') m = Some (n + c_bsize c + s_M s)) /\
  list_sum (s_nfe s') = list_sum (s_nfe s) + s_M s * (c_bsize c + s_M s) /\
  (list_sum (s_nfe s) = s_fcalls s -> (list_sum (s_nfe s') = s_fcalls s' <-> s_M s = 1)).
Proof. exact @heavi_counts. Qed.
Print Assumptions C12_heaviside_counters_refuted.

Example C12_example : exists s log, exec (zch 3 []) s log /\ s_M s = 2 /\ s_active s <> [] /\
  one_consensus_point (zch 3 []) /\ list_sum (s_nfe s) = s_fcalls s /\
  exists s', perms_valid (zorc 1 [1; 2; 0]) s /\ step (zch 3 []) (zorc 1 [1; 2; 0]) s = Ok s' /\
    s_nfe s' = [5; 5] /\ s_fcalls s' = 8.
Proof. exact heavi_counts_example. Qed.

(** C69. With a Heaviside correction a step raises as soon as some but not all runs have
    terminated, and in every step with a partially updated mini-batch. *)
Theorem C69_heaviside_raises_refuted :
  forall (K V : Type) (O : KOps K) (c : cfg K V) fac s log (o : orc V),
  exec c s log -> perms_valid o s -> c_corr c = Heavi fac -> one_consensus_point c -> s_active s <> [] ->
  length (s_active s) < s_M s \/ (c_bsize c < s_N s /\ c_partial c = true) ->
  step c o s = Err ShapeError.
Proof. exact @heavi_raises. Qed.
Print Assumptions C69_heaviside_raises_refuted.

Example C69_example : exists s log, exec (zch 3 [CEnergyTol (Fin 5%Z)]) s log /\ s_M s = 2 /\ s_active s = [0] /\
  one_consensus_point (zch 3 [CEnergyTol (Fin 5%Z)]).
Proof. exact heavi_raises_example. Qed.

(** C69. In the remaining cases (all runs active; no batching or a full update) it does not. *)
Theorem C69_heaviside_works :
  forall (K V : Type) (O : KOps K) (c : cfg K V) fac s log (o : orc V),
  exec c s log -> perms_valid o s -> c_corr c = Heavi fac -> one_consensus_point c ->
  length (s_active s) = s_M s -> (c_bsize c = s_N s \/ c_partial c = false) ->
  exists s', step c o s = Ok s'.
Proof. exact @heavi_works. Qed.
Print Assumptions C69_heaviside_works.
