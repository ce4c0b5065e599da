(** * Concrete cases for live plotting *)
From Coq Require Import String List Arith Bool ZArith Permutation Lia Reals Lra.
From Verif Require Import Scalar Np PdynFacts State Pdyn PdynOk Exec TermSpec Script ExZ ExBatch HistSpec HistFacts ExHist Plotting PlotFacts ExUtil LivePlot LiveFacts RunFacts
  RVec ConsSpec Cbo CboSpec CboFacts ExCbo SimSpec MemSymSpec ExMemSym.
Import ListNotations.
Open Scope nat_scope.
Open Scope list_scope.

(** mini-batches of two of three particles *)
Definition lcfg : cfg R vec := cbo_cfg ExCbo.sqf NAniso (fun v => v) NoCorr 2 true false [CMaxIt (Some 10)] false.
Lemma ex_tips : exists s log s', exec lcfg s log /\ constructed lcfg s /\ perms_valid corc s /\ step lcfg corc s = Ok s' /\ finite_obj 2 ExCbo.sqf /\ length (s_active s) = s_M s /\ s_N s = 3 /\
  nth_error (s_x s) 0 = Some (map floats cX) /\ (forall v, In v (map floats cX) -> real_point 2 v) /\ nth_error (s_alpha s) 0 = Some [Fin 5%R].
Proof.
  destruct (cinit_ok lcfg 5 1 (/ 10) 1) as (s & Hs & E & H1 & H2 & H3 & H4 & H5 & H6 & H7 & H8 & H9 & H10); [cbn; lia|lra|].
  destruct (exec_step_good lcfg s _ corc (E) (cbo_plain _ _ _ _ _ _ _ _ _) H4) as (s' & HS).
  assert (HA : nth_error (s_alpha s) 0 = Some [Fin 5%R]). { unfold cinit in Hs. injection Hs as <-. reflexivity. }
  eexists s, _, s'. split; [exact E|].
  split. { exists cx0, false, (Fin 5%R), (Fin 1%R), (Fin 1%R), (Fin (/ 10)%R), (fun _ => [2; 0; 1]), None, [], None.
    split; [split; [reflexivity|repeat constructor]|]. split; [cbn; lia|]. split; [cbn; lia|].
    split; [intros; apply (perm_b_ok 3); reflexivity|]. split; [discriminate|exact Hs]. }
  split; [exact H4|]. split; [exact HS|]. split; [apply sqf_finite|]. split; [rewrite H1, H3; reflexivity|]. split; [exact H2|].
  split; [rewrite H10; reflexivity|]. split; [|exact HA]. intros v Hv. apply (cx0_real (map floats cX)); auto. left. auto.
Qed.

(** run 0 has reached the tolerance after the first step *)
Lemma ex_other : exists s log s', exec zcp s log /\ perms_valid (zorc (-2) [1; 2; 0]) s /\ one_consensus_point zcp /\ c_corr zcp = NoCorr /\ step zcp (zorc (-2) [1; 2; 0]) s = Ok s' /\
  s_M s = 2 /\ s_active s = [1] /\ s_x s = [[-1; 0; 1]; [48; 49; 50]]%Z /\
  live_update Z.opp 0 true true s' = Ok (mklive [-1; 0; 1]%Z (Some [48]%Z) (Some ([48; 49; 50]%Z, [0; -1; -2]%Z))) /\
  live_update Z.opp 1 true true s' = Err IndexError.
Proof.
  let r := eval vm_compute in (zpinit zcp zxp) in
  match r with Ok ?s0 =>
    let s1 := ok_step zcp (zorc (-2) [1; 2; 0]) s0 in
    let t := eval vm_compute in (terminate zcp s1) in
    match t with Ok (?b, ?s1') =>
    let s2 := ok_step zcp (zorc (-2) [1; 2; 0]) s1' in
    exists s1'; eexists; exists s2;
    split; [eapply (ex_term zcp s1 _ b s1');
      [eapply (ex_step zcp s0 _ (zorc (-2) [1; 2; 0]) s1);
        [apply ex_init; exists zxp, false, (Fin 1%Z), (Fin 1%Z), (Fin 1%Z), (Fin 1%Z), (fun _ => [2; 0; 1]), (Some ["x"; "consensus"; "drift"]%string), [], (Some 1);
          split; [split; [reflexivity|repeat constructor]|]; split; [cbn; lia|]; split; [cbn; lia|];
          split; [intros; apply (perm_b_ok 3); reflexivity|]; split; [discriminate|vm_compute; reflexivity]
        |apply zperm_valid; vm_compute; reflexivity|vm_compute; reflexivity]
      |vm_compute; reflexivity]
    |] end end.
  split; [apply zperm_valid; vm_compute; reflexivity|]. split; [apply zbest_one|]. split; [reflexivity|].
  split; [vm_compute; reflexivity|]. split; [reflexivity|]. split; [reflexivity|]. split; [reflexivity|]. split; vm_compute; reflexivity.
Qed.

(** save_int = 2, three steps: the second picture from the history shows the ensemble after the first step with the consensus of the third *)
Definition zpinit2 (c : cfg Z Z) (x : arr Z) : res (st Z Z) :=
  init c x false (Fin 1%Z) (Fin 1%Z) (Fin 1%Z) (Fin 1%Z) (fun _ => [2; 0; 1]) (Some ["x"; "consensus"; "drift"]%string) [] (Some 2).
Lemma ex_history : exists pairs s a b fs l, tracked_run zcp zx1 ["x"; "consensus"; "drift"]%string 2 pairs s /\ length pairs = 3 /\ nth_error pairs 2 = Some (a, b) /\
  plot_history 1 1 true true (s_hist s) = Ok fs /\ live_update Z.opp 1 true true b = Ok l /\
  exists f, nth_error fs 1 = Some f /\ fr_c f = lv_c l /\ fr_x f <> lv_x l.
Proof.
  let r := eval vm_compute in (zpinit2 zcp zx1) in
  match r with Ok ?s0 =>
    let s1 := ok_step zcp (zorc (-2) [1; 2; 0]) s0 in
    let s2 := ok_step zcp (zorc (-2) [1; 2; 0]) s1 in
    let s3 := ok_step zcp (zorc 3 [0; 2; 1]) s2 in
    exists [(s0, s1); (s1, s2); (s2, s3)], s3, s2, s3; do 2 eexists;
    split; [exists false, (Fin 1%Z), (Fin 1%Z), (Fin 1%Z), (Fin 1%Z), (fun _ => [2; 0; 1]), s0;
      split; [split; [reflexivity|repeat constructor]|]; split; [cbn; lia|]; split; [cbn; lia|];
      split; [intros; apply (perm_b_ok 3); reflexivity |]; split; [auto|]; split; [vm_compute; reflexivity|];
      split; [repeat constructor; cbn; intros H; repeat (destruct H as [H | H]; [discriminate |]); destruct H|];
      split; [intros _ H; cbn in H; repeat (destruct H as [H | H]; [discriminate |]); destruct H|];
       refine (rr_step zcp s0 [(s0, s1); (s1, s2)] s2 (zorc 3 [0; 2; 1]) s3 _ _ _);
      [refine (rr_step zcp s0 [(s0, s1)] s1 (zorc (-2) [1; 2; 0]) s2 _ _ _);
       [refine (rr_step zcp s0 [] s0 (zorc (-2) [1; 2; 0]) s1 (rr_nil zcp s0) _ _)| |] | |];
      try (apply zperm_valid; vm_compute; reflexivity); try (vm_compute; reflexivity)
    |] end.
  split; [reflexivity|]. split; [reflexivity|]. split; [vm_compute; reflexivity|]. split; [vm_compute; reflexivity|].
  eexists. split; [reflexivity|]. split; [reflexivity|]. cbn. discriminate.
Qed.
