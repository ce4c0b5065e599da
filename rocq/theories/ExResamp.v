(** * Concrete cases for the resampling rules and the success evaluation *)
From Coq Require Import List Arith Bool ZArith Lia.
From Verif Require Import Scalar Np State Pdyn Exec Script ExZ Resampling ResampSpec ResampFacts StagFacts ResampApply ResampTerm.
Import ListNotations.
Open Scope nat_scope.
Open Scope list_scope.

Definition zabs1 (v : Z) : fl Z := Fin (Z.abs v).

(** one run of two particles, the better one already at the minimum, no noise *)
Definition zcs : cfg Z Z := zcfg sqf NoCorr 2 true false [CMaxIt (Some 20)].
Definition zscr_a : option (st Z Z * list (nat * Z)) :=
  script zcs [[0; 5]]%Z (Fin 1%Z) (Fin 0%Z) (Fin 1%Z) (Fin 1%Z) [0; 1] None None [AStep (zorc 0 [0; 1])].

(** a run is selected after a single recorded update *)
Lemma stag_early : forall patience, 2 <= patience ->
  exists s1 log, exec zcs s1 log /\ exists o s2, perms_valid o s1 /\ step zcs o s1 = Ok s2 /\
    one_point_per_run 1 s1 /\ one_point_per_run 1 s2 /\
    stag_calls zcs zabs1 (fun _ => 0%Z) patience (Fin 1%Z) [s1; s2] (mkcstag None []) = Ok [[]; [0]].
Proof.
  intros p Hp. destruct p as [|[|p]]; try lia.
  run_script zscr_a. exists (zorc 0 [0; 1]).
  eexists. split; [apply zperm_valid; reflexivity |]. split; [vm_compute; reflexivity |].
  split; [| split; [| vm_compute; reflexivity]].
  all: split; [reflexivity |]; split; [repeat constructor; intros [] |];
    split; [intros m [<- | []]; auto |]; split; [reflexivity |];
    split; [repeat constructor; discriminate |];
    eexists; split; [reflexivity |]; split; [reflexivity | repeat constructor].
Qed.

(** five calls on the state of [zex1], threshold 2 *)
Lemma loss_example : exists s log, exec zc1 s log /\ s_M s = 2 /\ length (s_be s) = 2 /\
  loss_calls 2 (repeat s 5) None = Ok [[]; []; [0; 1]; []; [0; 1]].
Proof. run_script zscript1. vm_compute. auto. Qed.

Definition zscr_b : option (st Z Z * list (nat * Z)) :=
  script zc1 zx1 (Fin 1%Z) (Fin 1%Z) (Fin 1%Z) (Fin 1%Z) [2; 0; 1] None None
    [ATerm; AStep (zorc 1 [1; 2; 0]); ATerm; AStep (zorc (-2) [1; 2; 0]); ATerm].

(** run 1 is terminated; the step leaves it alone and the rule moves it *)
Lemma ens_example : exists s log, exec zc1 s log /\ s_active s = [0] /\
  exists s' r s'', perms_valid (zorc 3 [0; 2; 1]) s /\ step zc1 (zorc 3 [0; 2; 1]) s = Ok s' /\
    nth_error (s_x s) 1 = nth_error (s_x s') 1 /\
    resampling_call zc1 zabs1 (fun _ => 0%Z) (Fin 1%Z) false (fun _ _ => 7%Z) (mkrsm [REns (Fin 1%Z)] None None) s' = Ok (r, s'') /\
    r_num r = Some [0; 1] /\
    option_map (map (Z.add 7)) (nth_error (s_x s') 1) = nth_error (s_x s'') 1.
Proof.
  run_script zscr_b. split; [reflexivity |]. eexists. eexists. eexists.
  split; [apply zperm_valid; reflexivity |]. split; [vm_compute; reflexivity |].
  split; [reflexivity |]. split; [vm_compute; reflexivity |]. split; reflexivity.
Qed.

(** three runs, run 0 terminated: the consensus points are those of runs 1 and 2 *)
Definition zc3 : cfg Z Z := zcfg sqf NoCorr 2 true false [CEnergyTol (Fin 5%Z); CMaxIt (Some 20)].
Definition zscr_c : option (st Z Z * list (nat * Z)) :=
  script zc3 [[1; 2]; [60; 50]; [90; 80]]%Z (Fin 1%Z) (Fin 0%Z) (Fin 1%Z) (Fin 1%Z) [0; 1] None None
    [AStep (zorc 0 [0; 1]); ATerm; AStep (zorc 0 [0; 1])].

Lemma bestc_example : exists s log, exec zc3 s log /\ s_active s = [1; 2] /\ s_M s = 3 /\
  s_cons s = Some [[50]; [80]]%Z /\ run_point s 1 50%Z /\ run_point s 2 80%Z /\
  track_best_consensus zc3 [2] s None = Err IndexError /\
  exists s', track_best_consensus zc3 [1] s None = Ok (Some ([[50]; [80]]%Z, [[PInf]; [Fin 6400%Z]; [PInf]]), s') /\
    s_nfe s' = [2; 5; 5] /\ s_nfe s = [2; 4; 4].
Proof.
  run_script zscr_c. split; [reflexivity |]. split; [reflexivity |]. split; [reflexivity |].
  split; [exists 0; eexists; repeat split |]. split; [exists 1; eexists; repeat split |].
  split; [reflexivity |]. eexists. split; [vm_compute; reflexivity |]. split; reflexivity.
Qed.

(** two rules that both select run 1; it is counted once *)
Lemma twice_example : exists s log, exec zc1 s log /\
  exists r s', resampling_call zc1 zabs1 (fun _ => 0%Z) (Fin 1%Z) false (fun _ n => Z.of_nat n)
      (mkrsm [RCustom (fun _ => [1]); RCustom (fun _ => [1; 1])] (Some [4; 2]) None) s = Ok (r, s') /\
    r_num r = Some [4; 3] /\ nth_error (s_x s') 0 = nth_error (s_x s) 0.
Proof. run_script zscript1. eexists. eexists. split; [vm_compute; reflexivity |]. split; reflexivity. Qed.

(** two active runs, three calls: run 0 improves at the second call, both are worse at the third *)
Definition zc4 : cfg Z Z := zcfg sqf NoCorr 2 true false [CMaxIt (Some 20)].
Definition zscr_d : option (st Z Z * list (nat * Z)) :=
  script zc4 [[60; 50]; [30; 40]]%Z (Fin 1%Z) (Fin 1%Z) (Fin 1%Z) (Fin 1%Z) [0; 1] None None [AStep (zorc 0 [0; 1])].

Lemma track_example : exists s1 log, exec zc4 s1 log /\
  exists s2 s3 s4, step zc4 (zorc (-20) [0; 1]) s1 = Ok s2 /\ step zc4 (zorc 100 [0; 1]) s2 = Ok s3 /\
    step zc4 (zorc 0 [0; 1]) s3 = Ok s4 /\
    Forall (all_runs_active 2) [([0; 1], s1); ([0], s3); ([0; 1], s4)] /\
    s_cons s1 = Some [[50]; [30]]%Z /\ s_cons s3 = Some [[30]; [10]]%Z /\ s_cons s4 = Some [[130]; [110]]%Z /\
    track_calls zc4 [([0; 1], s1); ([0], s3); ([0; 1], s4)] None = Ok (Some ([[30]; [30]]%Z, [[Fin 900%Z]; [Fin 900%Z]])).
Proof.
  run_script zscr_d. eexists. eexists. eexists. split; [vm_compute; reflexivity |]. split; [vm_compute; reflexivity |]. split; [vm_compute; reflexivity |].
  split.
  { assert (D : forall l, forallb (fun i => existsb (Nat.eqb i) [0; 1]) l = true -> forall m, In m l -> m < 2).
    { intros l H m Hm. rewrite forallb_forall in H. apply H in Hm. cbn in Hm.
      destruct m as [|[|]]; [lia | lia | discriminate]. }
    assert (N2 : NoDup [0; 1]) by (repeat constructor; cbn; intuition lia).
    assert (N1 : NoDup [0]) by (repeat constructor; cbn; intuition lia).
    repeat apply Forall_cons; try apply Forall_nil; (split; [reflexivity |]; split; [assumption |]; split; [apply D; reflexivity |];
      eexists; split; [reflexivity |]; split; [reflexivity |]; repeat constructor). }
  vm_compute. auto.
Qed.
