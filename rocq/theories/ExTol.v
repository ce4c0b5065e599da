(** * diff_tol: an example *)
From Coq Require Import String List Arith Bool Reals Lia Lra.
From Verif Require Import Scalar Np NpFacts State Pdyn PdynRun PdynOk Exec TermSpec RunFacts Script RVec RVecFacts Consensus ConsSpec PostProc Cbo CboSpec CboFacts AbsorbFacts ExCbo TolSpec TolFacts.
Import ListNotations.
Open Scope R_scope.

Definition tolc : cfg R vec := cbo_cfg sqf NAniso (fun p => p) NoCorr 3 false false [CMaxTime (Fin 100); CDiffTol (Fin (1 / 100))] false.
Definition tsched (s : st R vec) : res (st R vec) := Ok (set_alpha (repeat [Fin 2] (s_M s)) s).
Lemma tsched_ok : alpha_sched tsched.
Proof.
  intros q HA. eexists. split; [reflexivity|]. exists (repeat [Fin 2] (s_M q)). split; auto. split.
  - split; [apply repeat_length|]. apply Forall_forall. intros r Hr. apply repeat_spec in Hr. subst. auto.
  - intros m Hm. exists 2. change (nth_error (repeat [Fin 2] (s_M q)) m = Some [Fin 2]). rewrite nth_error_repeat. destruct (Nat.ltb_spec m (s_M q)) as [Lt|Ge]; auto. exfalso. assert (Lt : (m < s_M q)%nat) by exact Hm. lia.
Qed.
Lemma tol_case : exists s s1, exec tolc s [] /\ finite_obj 2 sqf /\ finite_alpha s /\ parameters 1 (1 / 2) 0 s /\ 3%nat = s_N s /\ in_range (fun _ => corc) s /\
  (forall m, (m < s_M s)%nat -> exists X, ensemble_at s m 2 X /\ forall p, In p X -> in_box 2 (fun _ => -1) (fun _ => 4) p) /\
  Forall builtin (c_crit tolc) /\ In (CDiffTol (Fin (1 / 100))) (c_crit tolc) /\ alpha_sched tsched /\ (forall i : nat, finite_draws 2 ((fun _ => corc) i)) /\
  nth_error (s_active s) 0 = Some 0%nat /\ ensemble_at s 0 2 cX /\ perms_valid corc s /\ step tolc corc s = Ok s1.
Proof.
  destruct (cinit_ok tolc 1 1 (1 / 2) 0) as (s & _ & E & HM & HN & HA & P & FA & HP & HX & H1 & _ & _). cbn; lia. lra.
  destruct (exec_step_good tolc s [] corc E (cbo_plain _ _ _ _ _ _ _ _ _) P) as (s1 & HS). exists s, s1.
  split; auto. split; [apply sqf_finite|]. split; auto. split; auto. split; auto. split; [intros _; exact P|]. split.
  - rewrite HM. intros m Hm. assert (Hor : (m = 0 \/ m = 1)%nat) by lia. destruct Hor as [-> | ->].
    + exists cX. split; auto. intros p [<-|[<-|[<-|[]]]] [ | [ | i]] Hi; unfold coord; cbn; try lra; lia.
    + exists (repeat [3; 4] 3). split.
      * split; [unfold all_at in H1; rewrite H1, HN, map_repeat; auto|]. split; auto. intros p Hp. apply repeat_spec in Hp. subst. auto.
      * intros p Hp. apply repeat_spec in Hp. subst. intros [ | [ | i]] Hi; unfold coord; cbn; try lra; lia.
  - split; [repeat constructor|]. split; [cbn; auto|]. split; [exact tsched_ok|]. split; [intros _; exact corc_finite|]. split; [rewrite HA; auto|]. auto.
Qed.
