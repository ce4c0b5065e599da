(** * Noise-free CBO with mini-batches: cases *)
From Coq Require Import String List Arith Bool Reals Lia Lra.
From Verif Require Import Scalar Np NpFacts State Pdyn PdynRun PdynOk Exec RunFacts Script RVec RVecFacts Consensus ConsSpec PostProc Cbo CboSpec CboFacts ExCbo MomentSpec MsSpec LimSpec LimFacts MiniFacts.
Import ListNotations.
Open Scope R_scope.

Definition nc (b : nat) (partial : bool) : cfg R vec := cbo_cfg sqf NAniso (fun p => p) NoCorr b partial false [] false.
Definition nnext (b : nat) (partial : bool) (s : st R vec) : st R vec := match step (nc b partial) corc s with Ok s' => s' | Err _ => s end.
Lemma mini_run : forall b partial s log m, exec (nc b partial) s log -> perms_valid corc s -> In m (s_active s) -> endless (nc b partial) m 2 (fun n => Nat.iter n (nnext b partial) s).
Proof.
  intros b partial s log m E P Hm. assert (H : forall n, (exists l, exec (nc b partial) (Nat.iter n (nnext b partial) s) l) /\ perms_valid corc (Nat.iter n (nnext b partial) s) /\ In m (s_active (Nat.iter n (nnext b partial) s))).
  { induction n as [|n ((l & E1) & P1 & A1)]. cbn; eauto.
    destruct (exec_step_good (nc b partial) _ l corc E1 (cbo_plain _ _ _ _ _ _ _ _ _) P1) as (s2 & HS).
    destruct (step_keeps _ _ _ _ _ _ _ _ _ l corc s2 E1 P1 HS) as (K1 & K2 & _ & _ & _ & _ & K7).
    cbn [Nat.iter nat_rect]. change (nat_rect _ s (fun _ => nnext b partial) n) with (Nat.iter n (nnext b partial) s). unfold nnext at 1 3 5. rewrite HS.
    split; [eexists; eapply ex_step; eauto|]. split; [|rewrite K7; auto]. intros i Hi. rewrite K2. apply P1. congruence. }
  intros n. destruct (H n) as ((l & E1) & P1 & A1). exists (Nat.iter n (nnext b partial) s), corc. split; [constructor|]. split; auto. split; auto. split; [exact corc_finite|].
  destruct (exec_step_good (nc b partial) _ l corc E1 (cbo_plain _ _ _ _ _ _ _ _ _) P1) as (s2 & HS). rewrite HS. f_equal.
  change (Nat.iter (S n) (nnext b partial) s) with (nnext b partial (Nat.iter n (nnext b partial) s)). unfold nnext at 1. rewrite HS. auto.
Qed.
Definition blo (i : nat) : R := match i with 0%nat => -1 | _ => 1 end.
Definition bhi (i : nat) : R := match i with 0%nat => 2 | _ => 1 end.
Lemma mini_case : forall b partial, (1 <= b <= 3)%nat -> exists run, exec (nc b partial) (run 0%nat) [] /\ finite_obj 2 sqf /\ finite_alpha (run 0%nat) /\ parameters 1 (1 / 2) 0 (run 0%nat) /\ s_N (run 0%nat) = 3%nat /\
  ensemble_at (run 0%nat) 0 2 cX /\ (forall p, In p cX -> in_box 2 blo bhi p) /\ endless (nc b partial) 0 2 run.
Proof.
  intros b partial Hb. destruct (cinit_ok (nc b partial) 1 1 (1 / 2) 0) as (s & E0 & E & HM & HN & HA & P & FA & HP & HX & _ & _ & _). cbn; lia. lra.
  exists (fun n => Nat.iter n (nnext b partial) s). cbn [Nat.iter nat_rect]. split; [exact E|]. split; [apply sqf_finite|]. split; [exact FA|]. split; [exact HP|]. split; [auto|].
  split; [exact HX|]. split.
  - intros p [<-|[<-|[<-|[]]]] i Hi; destruct i as [|[|i]]; unfold coord, blo, bhi; cbn; try lra; lia.
  - eapply mini_run; eauto. rewrite HA. cbn. auto.
Qed.

(** endless runs are sessions *)
Lemma endless_later : forall f k pp b partial cat ks save m d run log, let c := cbo_cfg f k pp NoCorr b partial cat ks save in
  exec c (run 0%nat) log -> finite_alpha (run 0%nat) -> finite_parameters (run 0%nat) -> endless c m d run -> forall n, later c d (run 0%nat) (run n).
Proof.
  intros f k pp b partial cat ks save m d run log c E HA HP HR n. induction n as [|n IH]; [constructor|].
  destruct (AbsorbFacts.later_keep f k pp b partial cat ks save (run 0%nat) log d (run n) E HA HP IH) as ((l & E1) & A1 & P1 & N1).
  destruct (HR n) as (s1 & o & Hb & Hm & P & HD & HS). apply (la_step c d (run 0%nat) s1 o); auto. clear Hm P HD HS.
  assert (AL : forall a s', later c d (run 0%nat) a -> finite_parameters a -> alpha_changed a s' -> later c d (run 0%nat) s').
  { intros a s' La (la & dt & sg & Q) (al & -> & G1 & G2). apply (la_params c d (run 0%nat) a); auto.
    - exists al, (s_sigma a), (s_lamda a), (s_dt a). split; auto.
    - exists la, dt, sg. exact Q. }
  destruct Hb as [|b0 s' HT|s' HC|b0 s0 s' HT HC]; auto.
  - eapply la_term; eauto.
  - eapply AL; eauto.
  - apply (AL s0); auto. eapply la_term; eauto. destruct P1 as (la & dt & sg & Q). exists la, dt, sg.
    destruct (term_keeps f k pp b partial cat ks save _ _ _ HT) as (_ & _ & _ & _ & K4 & K5 & K6). unfold parameters in *. rewrite K4, K5, K6. exact Q.
Qed.

Lemma partial_limit_refuted : ~ (forall f k pp b partial cat ks save,
  let c := cbo_cfg f k pp NoCorr b partial cat ks save in
  forall run log m d X la dt lo hi, exec c (run 0%nat) log -> finite_obj d f -> finite_alpha (run 0%nat) ->
  parameters la dt 0 (run 0%nat) -> ensemble_at (run 0%nat) m d X -> 0 < la * dt <= 1 ->
  (forall p, length p = d -> in_box d lo hi p -> pp (floats p) = floats p) -> (forall p, In p X -> in_box d lo hi p) -> endless c m d run ->
  exists p, length p = d /\ forall eps, 0 < eps -> exists n0, forall n, (n0 <= n)%nat -> exists Y, ensemble_at (run n) m d Y /\
    forall y l, In y Y -> (l < d)%nat -> Rabs (coord l y - coord l p) <= eps).
Proof.
  intros H. destruct (mini_case 1 true ltac:(lia)) as (run & E & FO & FA & HP & HN & HX & HB & HR).
  destruct (H sqf NAniso (fun p => p) 1%nat true false [] false run [] 0%nat 2%nat cX 1 (1 / 2) blo bhi E FO FA HP HX ltac:(lra) ltac:(auto) HB HR) as (p & _ & Q).
  destruct (Q (1 / 2) ltac:(lra)) as (n0 & Q0). destruct (Q0 n0 ltac:(lia)) as (Y & HY & C).
  assert (FP : finite_parameters (run 0%nat)) by (exists 1, (1 / 2), 0; exact HP).
  pose proof (one_forever sqf NAniso (fun p => p) 1 true false [] false (run 0%nat) [] 0 2 cX (run n0) E FA FP ltac:(discriminate) FO eq_refl eq_refl (fun q _ => eq_refl) HX
    (endless_later _ _ _ _ _ _ _ _ _ _ _ _ E FA FP HR n0)) as HZ.
  assert (HYX : In [2; 1] Y /\ In [-1; 1] Y).
  { destruct HY as [HY _]. destruct HZ as [HZ _]. rewrite HY in HZ. injection HZ as HZ.
    assert (UN : forall U W, map floats U = map floats W -> U = W).
    { induction U as [|u U IH]; intros [|w W] G; try discriminate; auto. cbn in G. injection G as G1 G2. f_equal; auto.
      clear - G1. revert w G1. induction u as [|a u IH]; intros [|e v] G; try discriminate; auto. cbn in G. injection G as G1 G2. f_equal; auto. }
    change (map floats Y = map floats cX) in HZ. apply UN in HZ. subst Y. split; cbn; auto. }
  pose proof (C _ 0%nat (proj1 HYX) ltac:(lia)) as C1. pose proof (C _ 0%nat (proj2 HYX) ltac:(lia)) as C2. unfold coord in C1, C2. cbn in C1, C2.
  unfold Rabs in *. destruct (Rcase_abs _), (Rcase_abs _); lra.
Qed.
