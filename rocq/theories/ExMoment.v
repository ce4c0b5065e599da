(** * Moments of a step: examples *)
From Coq Require Import String List Arith Bool Reals Lia Lra.
From Verif Require Import Scalar Np NpFacts State Pdyn Exec Script RVec RVecFacts Consensus ConsSpec Cbo CboSpec ExCbo Nd MatSqrt MatSpec CovNoise CovCbo MomentSpec MomentFacts CovMoment Cbs.
Import ListNotations.
Open Scope R_scope.

(** two independent fair signs *)
Definition sgn (b : bool) : R := if b then 1 else -1.
Definition signs : list (bool * bool) := [(true, true); (true, false); (false, true); (false, false)].
Definition sign_avg : average (bool * bool) := uniform signs ltac:(discriminate).
Definition sxi (w : bool * bool) : list R := [sgn (fst w); sgn (snd w)].
Lemma sxi_white : white sign_avg 2 1 sxi.
Proof.
  split; [reflexivity|]. split.
  - intros i Hi. destruct i as [|[|i]]; [| |lia]; cbn; unfold uniform_mean; cbn; lra.
  - intros i j Hi Hj. destruct i as [|[|i]]; [| |lia]; (destruct j as [|[|j]]; [| |lia]); cbn; unfold uniform_mean; cbn; lra.
Qed.
Definition sorc (w : bool * bool) : orc vec := {| o_z := fun k n => floats (sxi w); o_perm := fun _ => [1; 0; 2]%nat |}.
Lemma moment_case : let c := cbo_cfg sqf NIso (fun p => p) NoCorr 3 false false [] false in
  exists s, exec c s [] /\ finite_obj 2 sqf /\ parameters 1 (1 / 100) (51 / 10) s /\ 3%nat = s_N s /\ nth_error (s_active s) 0 = Some 0%nat /\ ensemble_at s 0 2 cX /\
    nth_error (s_alpha s) 0 = Some [Fin 1] /\ nth_error cX 1 = Some [2; 1] /\ (forall w, perms_valid (sorc w) s /\ o_z (sorc w) 0 1 = floats (sxi w)) /\ white sign_avg 2 1 sxi.
Proof.
  intros c. destruct (cinit_ok c 1 1 (1 / 100) (51 / 10)) as (s & E0 & E & HM & HN & HA & P & FA & HP & HX & _ & _ & _). cbn; lia. lra.
  exists s. split; [exact E|]. split; [apply sqf_finite|]. split; [exact HP|]. split; [auto|]. split; [rewrite HA; auto|]. split; [exact HX|].
  split. { injection E0 as <-. reflexivity. }
  split; [reflexivity|]. split; [|apply sxi_white]. intros w. split; [|reflexivity]. intros m Hm. rewrite HN. apply (perm_b_ok 3). reflexivity.
Qed.

(** one dimension: eigh returns the matrix itself *)
Definition eigh1 (d : nat) (C : mat) : (nat -> R) * mat := (fun _ => C 0%nat 0%nat, mid).
Lemma eigh1_ok : forall C, msym 1 C -> eigen 1 C (fst (eigh1 1 C)) (snd (eigh1 1 C)).
Proof.
  intros C _. split; [|split]; intros i j Hi Hj; (assert (i = 0%nat) by lia); (assert (j = 0%nat) by lia); subst; unfold mmul, mtr, msum, mid, eigh1; cbn; ring.
Qed.
Definition fair : average bool := uniform [true; false] ltac:(discriminate).
Lemma fair_white : white fair 1 1 (fun b => [sgn b]).
Proof.
  split; [reflexivity|]. split. intros i Hi. assert (i = 0%nat) by lia. subst. cbn. unfold uniform_mean. cbn. lra.
  intros i j Hi Hj. assert (i = 0%nat) by lia. assert (j = 0%nat) by lia. subst. cbn. unfold uniform_mean. cbn. lra.
Qed.
Definition X1 : list (list R) := [[0]; [2]].
Definition x1 : nd (fl R) := mknd [1; 2; 1]%nat (fun i => match i with [_; n; _] => Fin (coord 0 (nth n X1 [])) | _ => NaN end).
Definition alpha1 : nd (fl R) := mknd [1; 1]%nat (fun _ => Fin (1 / 2)).
Lemma cov_case : ensemble 2 1 X1 /\ finite_obj 1 sqf /\ shape x1 = [1; 2; 1]%nat /\
  (forall j i, (j < 2)%nat -> (i < 1)%nat -> get x1 [0%nat; j; i] = Fin (coord i (nth j X1 []))) /\ shape alpha1 = [1; 1]%nat /\ get alpha1 [0; 0]%nat = Fin (1 / 2) /\
  (forall C, msym 1 C -> eigen 1 C (fst (eigh1 1 C)) (snd (eigh1 1 C))) /\ white fair 1 1 (fun b => [sgn b]).
Proof.
  split. { split; auto. intros p [<-|[<-|[]]]; auto. } split. apply sqf_finite. split; auto. split. { intros j i Hj Hi. assert (i = 0%nat) by lia. subst. reflexivity. }
  split; auto. split; auto. split. exact eigh1_ok. exact fair_white.
Qed.
