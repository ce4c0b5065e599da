(** * A concrete dynamic over the reals, used for examples

    Particles are coordinate lists, the consensus is the first particle of the batch, the
    noise is multiplied by the drift coordinate by coordinate. *)
From Coq Require Import String List Arith Bool Reals Permutation Lia Lra.
From Verif Require Import Scalar Np State Pdyn PdynOk Exec TermSpec RunFacts PostProc Script.
Import ListNotations.
Open Scope nat_scope.
Open Scope list_scope.

Definition rvec := list (fl R).
Definition rsum (v : rvec) : fl R := fold_right fadd (Fin 0%R) v.
Definition rcfg (b : nat) (pp : rvec -> rvec) (ks : list (crit R rvec)) : cfg R rvec :=
  {| c_f := rsum; c_vadd := map2 fadd; c_vsub := map2 fsub; c_vscale := fun a => map (fmul a);
     c_norm := fun l => rsum (concat l); c_dmean := fun l => rsum (concat l);
     c_ccrow := fun e x a => match x with v :: _ => [v] | [] => [[]] end;
     c_noise := fun dt d z => map2 fmul d z; c_pp := pp;
     c_corr := NoCorr; c_bsize := b; c_partial := true; c_concat := false;
     c_crit := ks; c_savepts := false |}.

Definition rx0 : arr rvec := [[[Fin 3; NaN]; [Fin (-5); PInf]; [NInf; Fin 2]]; [[Fin 0; Fin 1]; [Fin 7; Fin 8]; [Fin 1; Fin 1]]]%R.
Definition rinit (b : nat) (pp : rvec -> rvec) (ks : list (crit R rvec)) : res (st R rvec) :=
  init (rcfg b pp ks) rx0 false (Fin 1%R) (Fin 1%R) (Fin 1%R) (Fin (/ 2)%R) (fun _ => [2; 0; 1]) None [] None.
Definition rorc : orc rvec := {| o_z := fun k n => [Fin (INR n); PInf]; o_perm := fun _ => [1; 0; 2] |}.

Lemma rinit_ok : forall b pp ks, 1 <= b <= 3 -> exists s, rinit b pp ks = Ok s /\ exec (rcfg b pp ks) s [] /\
  s_M s = 2 /\ s_N s = 3 /\ s_t s = Fin 0%R /\ s_dt s = Fin (/2)%R /\ s_it s = 0 /\ plain (rcfg b pp ks) (s_N s) /\ perms_valid rorc s.
Proof.
  intros b pp ks Hb. eexists. split; [reflexivity|]. split; [|repeat split; try reflexivity].
  - apply ex_init. exists rx0, false, (Fin 1%R), (Fin 1%R), (Fin 1%R), (Fin (/2)%R), (fun _ => [2; 0; 1]), None, [], None.
    split; [split; [reflexivity|repeat constructor]|]. split; [cbn; lia|]. split; [exact Hb|].
    split; [|split; [discriminate|reflexivity]].
    intros m _. apply (perm_b_ok 3). reflexivity.
  - left. intros e x a. cbn. destruct x; reflexivity.
  - intros m _. apply (perm_b_ok 3). reflexivity.
Qed.

Lemma rstep_ok : forall b pp ks, 1 <= b <= 3 -> exists s s', exec (rcfg b pp ks) s [] /\ perms_valid rorc s /\
  step (rcfg b pp ks) rorc s = Ok s'.
Proof.
  intros b pp ks Hb. destruct (rinit_ok b pp ks Hb) as (s & _ & E & _ & _ & _ & _ & _ & G & P).
  destruct (exec_step_good _ _ _ _ E G P) as (s' & HS). exists s, s'. auto.
Qed.
