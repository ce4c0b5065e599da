(** * Endless runs: an example *)
From Coq Require Import String List Arith Bool Reals Lia Lra.
From Verif Require Import Scalar Np NpFacts State Pdyn PdynRun PdynOk Exec RunFacts Script RVec RVecFacts Consensus ConsSpec PostProc Cbo CboSpec CboFacts ExCbo MomentSpec MsSpec LimSpec LimFacts.
Import ListNotations.
Open Scope R_scope.

Definition lc : cfg R vec := cbo_cfg sqf NAniso (fun p => p) NoCorr 3 false false [] false.
Definition next (s : st R vec) : st R vec := match step lc corc s with Ok s' => s' | Err _ => s end.
Lemma endless_run : forall s log m, exec lc s log -> perms_valid corc s -> In m (s_active s) -> endless lc m 2 (fun n => Nat.iter n next s).
Proof.
  intros s log m E P Hm. assert (H : forall n, (exists l, exec lc (Nat.iter n next s) l) /\ perms_valid corc (Nat.iter n next s) /\ In m (s_active (Nat.iter n next s))).
  { induction n as [|n ((l & E1) & P1 & A1)]. cbn; eauto.
    destruct (exec_step_good lc _ l corc E1 (cbo_plain _ _ _ _ _ _ _ _ _) P1) as (s2 & HS).
    destruct (step_keeps _ _ _ _ _ _ _ _ _ l corc s2 E1 P1 HS) as (K1 & K2 & _ & _ & _ & _ & K7).
    cbn [Nat.iter nat_rect]. change (nat_rect _ s (fun _ => next) n) with (Nat.iter n next s). unfold next at 1 3 5. rewrite HS.
    split; [eexists; eapply ex_step; eauto|]. split; [|rewrite K7; auto]. intros i Hi. rewrite K2. apply P1. congruence. }
  intros n. destruct (H n) as ((l & E1) & P1 & A1). exists (Nat.iter n next s), corc. split; [constructor|]. split; auto. split; auto. split; [exact corc_finite|].
  destruct (exec_step_good lc _ l corc E1 (cbo_plain _ _ _ _ _ _ _ _ _) P1) as (s2 & HS). rewrite HS. f_equal.
  change (Nat.iter (S n) next s) with (next (Nat.iter n next s)). unfold next at 1. rewrite HS. auto.
Qed.
Lemma lim_case : exists run, exec lc (run 0%nat) [] /\ finite_obj 2 sqf /\ finite_alpha (run 0%nat) /\ parameters 1 (1 / 2) 0 (run 0%nat) /\ 3%nat = s_N (run 0%nat) /\
  ensemble_at (run 0%nat) 0 2 cX /\ (forall p, In p cX -> in_box 2 (fun i => match i with 0%nat => -1 | _ => 1 end) (fun i => match i with 0%nat => 2 | _ => 1 end) p) /\ endless lc 0 2 run.
Proof.
  destruct (cinit_ok lc 1 1 (1 / 2) 0) as (s & E0 & E & HM & HN & HA & P & FA & HP & HX & _ & _ & _). cbn; lia. lra.
  exists (fun n => Nat.iter n next s). cbn [Nat.iter nat_rect]. split; [exact E|]. split; [apply sqf_finite|]. split; [exact FA|]. split; [exact HP|]. split; [auto|].
  split; [exact HX|]. split.
  - intros p [<-|[<-|[<-|[]]]] i Hi; destruct i as [|[|i]]; unfold coord; cbn; try lra; lia.
  - eapply endless_run; eauto. rewrite HA. cbn. auto.
Qed.
