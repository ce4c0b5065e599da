(** * Concrete sessions that cannot fail *)
From Coq Require Import String List Arith Bool Reals Permutation Lia Lra.
From Verif Require Import Scalar Np State Pdyn Exec Script TermSpec SimSpec ConsSpec RVec Cbo CboSpec RegFacts ExCbo Variant RegVar SessSpec VarSessSpec VarTotalSpec ExMemSym ExCoord ExVarSym.
Import ListNotations.
Open Scope R_scope.

Definition one_run : arr vec := [map floats [[0; 1]; [2; 1]; [-1; 1]]].
(** new parameters, n steps, a termination check, n more steps and a reset *)
Definition tcalls (n : nat) : list (call (K := R) (V := vec)) := CaParameters (Fin 7) (Fin 1) (Fin 1) (Fin (/ 5)) :: repeat (CaStep corc) n ++ [CaTerminate] ++ repeat (CaStep corc) n ++ [CaReset].
Definition ucalls (n : nat) : list (call (K := R) (V := vec)) := repeat (CaStep corc) n ++ [CaReset].
Definition positive (t : fl R) : Prop := exists r, t = Fin r /\ 0 < r.

Lemma corc_perm : forall m, Permutation (o_perm corc m) (seq 0 3).
Proof. intros; apply (perm_b_ok 3); reflexivity. Qed.
Lemma steps_valid : forall (T : fl R -> Prop) M n l, valid_calls T M 3 l -> valid_calls T M 3 (repeat (CaStep corc) n ++ l).
Proof. intros T M n l H. induction n; [exact H|]. cbn [repeat app valid_calls]. split; auto. intros; apply corc_perm. Qed.
Lemma steps_unchecked : forall n (l : list (call (K := R) (V := vec))), no_checks l -> no_checks (repeat (CaStep corc) n ++ l).
Proof. intros n l H. induction n; [exact H|]. exact IHn. Qed.
Lemma ex_any : forall f k n, Forall builtin (c_crit (bcfg f k scrit)) /\ one_consensus_point (bcfg f k scrit) /\ c_corr (bcfg f k scrit) = NoCorr /\
  good_construction (bcfg f k scrit) cx0 (fun _ => [2; 0; 1]%nat) None /\ valid_calls (fun _ => True) (length cx0) (shape1 cx0) (tcalls n) /\ length cx0 = 2%nat.
Proof.
  intros f k n. split; [apply scrit_builtin|]. split; [intros ? ? ?; reflexivity|]. split; [reflexivity|]. split.
  { split; [split; [reflexivity|repeat constructor]|]. split; [cbn; lia|]. split; [cbn; lia|]. split; [intros; apply (perm_b_ok 3); reflexivity|discriminate]. }
  split; [|reflexivity]. split; [exact I|]. apply steps_valid. apply steps_valid. exact I.
Qed.
Lemma ex_one : forall f k n, Forall builtin (c_crit (bcfg f k scrit)) /\ one_consensus_point (bcfg f k scrit) /\
  good_construction (bcfg f k scrit) one_run (fun _ => [2; 0; 1]%nat) None /\ length one_run = 1%nat /\ positive (Fin (/ 10)) /\ valid_calls positive (length one_run) (shape1 one_run) (tcalls n) /\
  (forall t x y, positive t -> exists w, g_solve (line 0 0) (fdiv t (Fin (/ 10))) x y = Ok w).
Proof.
  intros f k n. split; [apply scrit_builtin|]. split; [intros ? ? ?; reflexivity|]. split.
  { split; [split; [reflexivity|repeat constructor]|]. split; [cbn; lia|]. split; [cbn; lia|]. split; [intros; apply (perm_b_ok 3); reflexivity|discriminate]. }
  split; [reflexivity|]. split; [exists (/ 10); split; [reflexivity|lra]|]. split.
  - split; [exists (/ 5); split; [reflexivity|lra]|]. apply steps_valid. apply steps_valid. exact I.
  - intros t x y (r & -> & Hr). rewrite fdiv_fin by lra. cbn [line g_solve]. unfold line_solve. destruct (Req_EM_T _ _) as [E|_]; [|eauto]. exfalso.
    assert (0 < r / / 10) by (apply Rdiv_lt_0_compat; lra). lra.
Qed.
Lemma ex_unchecked : forall n, no_checks (ucalls n) /\ valid_calls positive (length cx0) (shape1 cx0) (ucalls n).
Proof. intros n. split; [apply steps_unchecked; exact I|apply steps_valid; exact I]. Qed.
