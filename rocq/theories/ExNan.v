(** * A NaN and an infeasible ensemble *)
From Coq Require Import String List Arith Bool Lia Reals Lra.
From Verif Require Import Scalar Np NpFacts State Pdyn PdynStep PdynOk Exec RunFacts RVec ConsSpec PostProc Cbo CboSpec CboFacts NanSpec ExCbo.
Import ListNotations.
Open Scope R_scope.

(** defined for x_0 >= 0 only *)
Definition nanf (v : vec) : fl R := match v with Fin x :: _ => if Rltb x 0 then NaN else Fin x | _ => NaN end.
(** feasible for x_0 >= 10 only *)
Definition inff (v : vec) : fl R := match v with Fin x :: _ => if Rltb x 10 then PInf else Fin x | _ => PInf end.

Lemma cinit_alpha : forall c a la dt sg s, cinit c a la dt sg = Ok s -> nth_error (s_alpha s) 0 = Some [Fin a].
Proof.
  intros c a la dt sg s H. assert (Q : exists s', cinit c a la dt sg = Ok s' /\ nth_error (s_alpha s') 0 = Some [Fin a]) by (eexists; split; reflexivity).
  destruct Q as (s' & H' & Q). rewrite H in H'. injection H' as ->. exact Q.
Qed.

Lemma ex_start : forall f, undefined_mean (map f (map floats cX)) -> exists s s1, let c := cbo_cfg f NIso (pp_point 100000000 false) NoCorr 3 true false [] false in
  exec c s [] /\ perms_valid corc s /\ finite_draws 2 corc /\ finite_alpha s /\ finite_parameters s /\ 3%nat = s_N s /\
  nth_error (s_active s) 0 = Some 0%nat /\ nth_error (s_x s) 0 = Some (map floats cX) /\ (forall v, In v (map floats cX) -> length v = 2%nat) /\
  nth_error (s_alpha s) 0 = Some [Fin 1] /\ takeM (map floats cX) (run_sel c corc s 0) = Ok (map floats cX) /\
  undefined_mean (map f (map floats cX)) /\ step c corc s = Ok s1 /\ later c 2 s1 s1.
Proof.
  intros f HU. set (c := cbo_cfg f NIso (pp_point 100000000 false) NoCorr 3 true false [] false).
  destruct (cinit_ok c 1 1 1 1) as (s & Ei & E & HM & HN & Ha & P & FA & FP & HX & _ & _ & Ex); [cbn; lia|lra|].
  destruct (exec_step_good c s [] corc E (cbo_plain _ _ _ _ _ _ _ _ _) P) as (s1 & HS).
  exists s, s1. cbv zeta. fold c. split; auto. split; auto. split; [exact corc_finite|]. split; auto. split; [exists 1, 1, 1; auto|]. split; auto.
  split; [rewrite Ha; reflexivity|]. split; [rewrite Ex; reflexivity|].
  split. { intros v [<-|[<-|[<-|[]]]]; reflexivity. }
  split. { exact (cinit_alpha _ _ _ _ _ _ Ei). }
  split. { unfold run_sel. rewrite HN. reflexivity. } split; auto. split; auto. constructor.
Qed.

Lemma ex_nan : exists s s1, let c := cbo_cfg nanf NIso (pp_point 100000000 false) NoCorr 3 true false [] false in
  exec c s [] /\ perms_valid corc s /\ finite_draws 2 corc /\ finite_alpha s /\ finite_parameters s /\ 3%nat = s_N s /\
  nth_error (s_active s) 0 = Some 0%nat /\ nth_error (s_x s) 0 = Some (map floats cX) /\ (forall v, In v (map floats cX) -> length v = 2%nat) /\
  nth_error (s_alpha s) 0 = Some [Fin 1] /\ takeM (map floats cX) (run_sel c corc s 0) = Ok (map floats cX) /\
  undefined_mean (map nanf (map floats cX)) /\ step c corc s = Ok s1 /\ later c 2 s1 s1.
Proof. apply ex_start. left. cbn. rewrite (proj2 (Rltb_true (-1) 0)) by lra. auto. Qed.

Lemma ex_inf : exists s s1, let c := cbo_cfg inff NIso (pp_point 100000000 false) NoCorr 3 true false [] false in
  exec c s [] /\ perms_valid corc s /\ finite_draws 2 corc /\ finite_alpha s /\ finite_parameters s /\ 3%nat = s_N s /\
  nth_error (s_active s) 0 = Some 0%nat /\ nth_error (s_x s) 0 = Some (map floats cX) /\ (forall v, In v (map floats cX) -> length v = 2%nat) /\
  nth_error (s_alpha s) 0 = Some [Fin 1] /\ takeM (map floats cX) (run_sel c corc s 0) = Ok (map floats cX) /\
  undefined_mean (map inff (map floats cX)) /\ step c corc s = Ok s1 /\ later c 2 s1 s1.
Proof.
  apply ex_start. right. right. cbn. rewrite (proj2 (Rltb_true 0 10)), (proj2 (Rltb_true 2 10)), (proj2 (Rltb_true (-1) 10)) by lra.
  intros e [<-|[<-|[<-|[]]]]; auto.
Qed.
