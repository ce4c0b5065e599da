(** * Concrete cases: repeated calls of one resampling object, the Taz kernel *)
From Coq Require Import List Arith Bool ZArith Lia.
From Verif Require Import Scalar Np NpFacts State Pdyn PdynFacts Exec Script ExZ Resampling ResampSpec ResampFacts StagFacts ResampApply ExResamp RsmCalls.
Import ListNotations.
Open Scope nat_scope.
Open Scope list_scope.

(** the loss rule fires at the third and at the fifth call, the other rule (threshold 0) never; with threshold 1
    the other rule fires at every call but the first *)
Lemma rsm_example : exists s log, exec zcs s log /\ one_point_per_run 1 s /\ s_N s = 2 /\ length (s_be s) = 1 /\ rect 1 2 (s_x s) /\
  (exists outs, rsm_calls zcs zabs1 (fun _ => 0%Z) (Fin 1%Z) (fun _ _ n => Z.of_nat n)
     (mkrsm [RLoss 2 None; RCons 3 (Fin 0%Z) (mkcstag None [])] None None) (repeat s 5) = Ok outs /\
     map (fun p => r_num (fst p)) outs = [Some [0]; Some [0]; Some [1]; Some [1]; Some [2]]) /\
  (exists outs, rsm_calls zcs zabs1 (fun _ => 0%Z) (Fin 1%Z) (fun _ _ n => Z.of_nat n)
     (mkrsm [RLoss 2 None; RCons 3 (Fin 1%Z) (mkcstag None [])] None None) (repeat s 5) = Ok outs /\
     map (fun p => r_num (fst p)) outs = [Some [0]; Some [1]; Some [2]; Some [3]; Some [4]]).
Proof.
  run_script zscr_a.
  split.
  { split; [reflexivity |]; split; [repeat constructor; intros [] |];
    split; [intros m [<- | []]; auto |]; split; [reflexivity |];
    split; [repeat constructor; discriminate |];
    eexists; split; [reflexivity |]; split; [reflexivity | repeat constructor]. }
  split; [reflexivity|]. split; [reflexivity|].
  split; [split; [reflexivity|]; intros [|[|k]] row H; try discriminate; injection H as <-; reflexivity|].
  split; eexists; (split; [vm_compute; reflexivity | reflexivity]).
Qed.
