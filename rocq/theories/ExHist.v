(** * Concrete executions for the history and for the Heaviside correction *)
From Coq Require Import String List Arith Bool ZArith Permutation Lia.
From Verif Require Import Scalar Np State Pdyn Exec TermSpec Script ExZ ExBatch HistSpec HistFacts.
Import ListNotations.
Open Scope string_scope.
Open Scope nat_scope.
Open Scope list_scope.

Definition zhinit : res (st Z Z) :=
  init zc1 zx1 false (Fin 1%Z) (Fin 1%Z) (Fin 1%Z) (Fin 1%Z) (fun _ => [2; 0; 1])
       (Some ["x"; "it"; "drift"; "best_energy"]) [] (Some 2).

(** three steps, every second one recorded *)
Lemma hist_example : exists s0 pairs s, zhinit = Ok s0 /\ recorded_run zc1 s0 pairs s /\ length pairs = 3 /\
  hist_get "it" (s_hist s) = Some [HNat 0; HNat 2] /\
  hist_get "best_energy" (s_hist s) = Some [HUpd [Fin 49; Fin 9]; HUpd [Fin 16; Fin 1]]%Z /\
  exists a b, hist_get "x" (s_hist s) = Some [HX zx1; HX a; HX b] /\ a <> b.
Proof.
  let r := eval vm_compute in zhinit in
  match r with Ok ?s0 => exists s0;
    let s1 := ok_step zc1 (zorc 1 [1; 2; 0]) s0 in
    let s2 := ok_step zc1 (zorc (-2) [1; 2; 0]) s1 in
    let s3 := ok_step zc1 (zorc 3 [0; 2; 1]) s2 in
    exists [(s0, s1); (s1, s2); (s2, s3)], s3;
    split; [vm_compute; reflexivity|]; split;
    [ refine (rr_step zc1 s0 [(s0, s1); (s1, s2)] s2 (zorc 3 [0; 2; 1]) s3 _ _ _);
      [refine (rr_step zc1 s0 [(s0, s1)] s1 (zorc (-2) [1; 2; 0]) s2 _ _ _);
       [refine (rr_step zc1 s0 [] s0 (zorc 1 [1; 2; 0]) s1 (rr_nil zc1 s0) _ _)| |] | |];
      try (apply zperm_valid; vm_compute; reflexivity); try (vm_compute; reflexivity)
    |] end.
  vm_compute. split; [reflexivity|]. split; [reflexivity|]. split; [reflexivity|].
  do 2 eexists. split; [reflexivity|]. discriminate.
Qed.

(** two runs with the Heaviside correction *)
Definition zch (b : nat) (ks : list (crit Z Z)) : cfg Z Z := zcfg sqf (Heavi heavi_side_fac) b true false ks.
Definition zscript_h0 : option (st Z Z * list (nat * Z)) :=
  script (zch 3 []) zx1 (Fin 1%Z) (Fin 1%Z) (Fin 1%Z) (Fin 1%Z) [2; 0; 1] None None [].
Definition zscript_h1 : option (st Z Z * list (nat * Z)) :=
  script (zch 3 [CEnergyTol (Fin 5%Z)]) zx1 (Fin 1%Z) (Fin 1%Z) (Fin 1%Z) (Fin 1%Z) [2; 0; 1] None None
    [AStep (zorc 1 [1; 2; 0]); ATerm].

Lemma heavi_counts_example : exists s log, exec (zch 3 []) s log /\ s_M s = 2 /\ s_active s <> [] /\
  one_consensus_point (zch 3 []) /\ list_sum (s_nfe s) = s_fcalls s /\
  exists s', perms_valid (zorc 1 [1; 2; 0]) s /\ step (zch 3 []) (zorc 1 [1; 2; 0]) s = Ok s' /\
    s_nfe s' = [5; 5] /\ s_fcalls s' = 8.
Proof.
  run_script zscript_h0. split; [reflexivity|]. split; [discriminate|]. split; [apply zbest_one|].
  split; [reflexivity|]. eexists. split; [apply zperm_valid; reflexivity|]. split; [vm_compute; reflexivity|].
  split; reflexivity.
Qed.

(** run 1 has reached energy_tol, run 0 has not: the next step raises *)
Lemma heavi_raises_example : exists s log, exec (zch 3 [CEnergyTol (Fin 5%Z)]) s log /\ s_M s = 2 /\ s_active s = [0] /\
  one_consensus_point (zch 3 [CEnergyTol (Fin 5%Z)]).
Proof. run_script zscript_h1. split; [reflexivity|]. split; [reflexivity|]. apply zbest_one. Qed.
