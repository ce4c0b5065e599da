(** * A concrete dynamic over the integers, used for examples and counterexamples

    Particles are integers, the consensus of a run is its lowest-energy particle, the
    noise is the draw itself, post-processing clips to [-1000, 1000]. *)
From Coq Require Import String List Arith Bool ZArith Permutation Lia.
From Verif Require Import Scalar Np State Pdyn Exec TermSpec Script.
Import ListNotations.
Open Scope string_scope.
Open Scope nat_scope.
Open Scope list_scope.

Definition zscale (a : fl Z) (v : Z) : Z := match a with Fin k => (k * v)%Z | _ => 0%Z end.
Definition zclip (v : Z) : Z := Z.max (-1000) (Z.min 1000 v).
Definition zabs_sum (l : list Z) : Z := fold_right (fun v a => (Z.abs v + a)%Z) 0%Z l.

Definition zbest (e : list (fl Z)) (x : list Z) (a : fl Z) : list Z :=
  match argmin e with Ok (j, _) => [nth j x 0%Z] | Err _ => [0%Z] end.

(** [zcfg f corr bsize partial concat crits] *)
Definition zcfg (f : Z -> fl Z) (cr : corr Z) (b : nat) (partial concat : bool) (ks : list (crit Z Z)) : cfg Z Z :=
  {| c_f := f; c_vadd := Z.add; c_vsub := Z.sub; c_vscale := zscale;
     c_norm := fun l => Fin (zabs_sum l); c_dmean := fun l => Fin (zabs_sum l);
     c_ccrow := zbest; c_noise := fun dt d z => z; c_pp := zclip;
     c_corr := cr; c_bsize := b; c_partial := partial; c_concat := concat;
     c_crit := ks; c_savepts := false |}.

Definition sqf (v : Z) : fl Z := Fin (v * v)%Z.

(** draws: [z] for every particle, one permutation for all runs *)
Definition zorc (z : Z) (p : list nat) : orc Z := {| o_z := fun k n => (z + Z.of_nat n)%Z; o_perm := fun _ => p |}.

Lemma zbest_one : forall f cr b p cc ks, one_consensus_point (zcfg f cr b p cc ks).
Proof. intros f cr b p cc ks e x a. cbn. unfold zbest. destruct (argmin e) as [[j v]|]; reflexivity. Qed.

Lemma zplain : forall f b p cc ks N, plain (zcfg f NoCorr b p cc ks) N.
Proof. intros. split; [left; apply zbest_one|reflexivity]. Qed.

Lemma sq_no_nan : forall cr b p cc ks, no_nan (zcfg sqf cr b p cc ks).
Proof. intros cr b p cc ks v. reflexivity. Qed.

Lemma zclip_idem : forall v, zclip (zclip v) = zclip v.
Proof. intros. unfold zclip. lia. Qed.

Lemma zperm_valid : forall z p s, perm_b (s_N s) p = true -> perms_valid (zorc z p) (s : st Z Z).
Proof. intros z p s H m Hm. apply perm_b_ok. auto. Qed.

(** Two runs of three particles, batches of two, partial update; run 1 has met
    the criterion energy_tol = 5 after two steps, run 0 is still active. *)
Definition zc1 : cfg Z Z := zcfg sqf NoCorr 2 true false [CEnergyTol (Fin 5%Z); CMaxIt (Some 20)].
Definition zx1 : arr Z := [[7; -4; 9]; [3; 2; -8]]%Z.
Definition zscript1 : option (st Z Z * list (nat * Z)) :=
  script zc1 zx1 (Fin 1%Z) (Fin 1%Z) (Fin 1%Z) (Fin 1%Z) [2; 0; 1] None None
    [ATerm; AStep (zorc 1 [1; 2; 0]); ATerm; AStep (zorc (-2) [1; 2; 0]); ATerm;
     AStep (zorc 3 [0; 2; 1]); ATerm].

Ltac run_script S :=
  let r := eval vm_compute in S in
  match r with
  | Some (?s, ?l) =>
      exists s, l;
      let E := fresh in
      let S' := eval unfold S in S in
      assert (E : S' = Some (s, l)) by (vm_cast_no_check (eq_refl (Some (s, l))));
      apply script_exec in E;
      split; [exact E|clear E]
  end.

(** The state reached and the log of evaluated points; all hypotheses of the theorems on
    executions are met here, with one run terminated and stale energies. *)
Lemma zex1 : exists s log, exec zc1 s log /\ no_nan zc1 /\ plain zc1 (s_N s) /\ s_M s = 2 /\ s_N s = 3 /\
  s_active s = [0] /\ s_it s = 3 /\
  s_be s = [Fin 16; Fin 4]%Z /\ s_bp s = [-4; 2]%Z /\ s_bcp s = [-6; 0]%Z /\
  s_nfe s = [6; 4] /\ s_fcalls s = 10 /\ length log = 10 /\ s_reason s = [None; Some [0]].
Proof.
  run_script zscript1. split; [apply sq_no_nan|]. split; [apply zplain|].
  vm_compute. repeat split; reflexivity.
Qed.

(** the scheduler that sets dt to 1 *)
Definition zsched (s : st Z Z) : res (st Z Z) := Ok (set_dt (Fin 1%Z) s).

Lemma zsched_ok : param_sched zsched /\ total_sched zsched /\ (forall q q', zsched q = Ok q' -> nonneg_dt q').
Proof.
  split; [|split].
  - intros s s' H. inversion H; subst. exists (s_alpha s), (s_sigma s), (s_lamda s), (Fin 1%Z). split; [auto|].
    destruct s; reflexivity.
  - intros s. eexists. reflexivity.
  - intros q q' H. inversion H; subst. exists 1%Z. split; reflexivity.
Qed.

Lemma znorm0 : forall row, c_norm zc1 (map2 (c_vsub zc1) row row) = Fin 0%Z.
Proof. induction row; cbn in *; auto. rewrite Z.sub_diag. auto. Qed.

Definition zscript0 : option (st Z Z * list (nat * Z)) :=
  script zc1 zx1 (Fin 1%Z) (Fin 1%Z) (Fin 1%Z) (Fin 1%Z) [2; 0; 1] None None [].

(** two iterations of the loop of optimize, after which run 1 meets energy_tol *)
Lemma zloop_example : exists s log, exec zc1 s log /\ log = [] /\ s_nfe s = [0; 0] /\ nonneg_dt s /\
  exists s', loop zc1 zsched s 2 s' /\ s_nfe s' = [4; 4] /\
    exists a, terminate zc1 s' = Ok (false, a) /\ s_active a = [0].
Proof.
  run_script zscript0. split; [reflexivity|]. split; [reflexivity|].
  split; [exists 1%Z; split; reflexivity|].
  eexists. split.
  - eapply loop_iter with (o := zorc (-2) [1; 2; 0]).
    + eapply loop_iter with (o := zorc 1 [1; 2; 0]).
      * apply loop_start.
      * vm_compute. reflexivity.
      * apply zperm_valid. reflexivity.
      * vm_compute. reflexivity.
      * vm_compute. reflexivity.
    + vm_compute. reflexivity.
    + apply zperm_valid. reflexivity.
    + vm_compute. reflexivity.
    + vm_compute. reflexivity.
  - split; [reflexivity|]. eexists. split; vm_compute; reflexivity.
Qed.

Lemma zterm_example :
  param_sched zsched /\ total_sched zsched /\
  (forall q q', zsched q = Ok q' -> nonneg_dt q') /\
  (forall v, c_pp zc1 (c_pp zc1 v) = c_pp zc1 v) /\
  (forall row, c_norm zc1 (map2 (c_vsub zc1) row row) = Fin 0%Z) /\
  Forall positive_tol (c_crit zc1) /\ Forall builtin (c_crit zc1) /\
  In (CMaxIt (Some 20)) (c_crit zc1) /\
  exists s log, exec zc1 s log /\ log = [] /\ s_nfe s = [0; 0] /\ nonneg_dt s /\
  exists s', loop zc1 zsched s 2 s' /\ s_nfe s' = [4; 4] /\
    exists a, terminate zc1 s' = Ok (false, a) /\ s_active a = [0].
Proof.
  destruct zsched_ok as (A & B & C).
  split; [exact A|]. split; [exact B|]. split; [exact C|]. split; [exact zclip_idem|]. split; [exact znorm0|].
  split; [repeat constructor|]. split; [repeat constructor|]. split; [cbn; auto|]. exact zloop_example.
Qed.

(** an objective which is NaN at 1 *)
Definition nanf (v : Z) : fl Z := if Z.eqb v 1 then NaN else Fin (v * v)%Z.
Definition zc_nan (b : nat) : cfg Z Z := zcfg nanf NoCorr b true false [].
Definition zscript_nan1 : option (st Z Z * list (nat * Z)) :=
  script (zc_nan 2) [[2; 1]]%Z (Fin 1%Z) (Fin 1%Z) (Fin 1%Z) (Fin 1%Z) [0; 1] None None [AStep (zorc 0 [0; 1])].
Definition zscript_nan2 : option (st Z Z * list (nat * Z)) :=
  script (zc_nan 1) [[2; 1]]%Z (Fin 1%Z) (Fin 1%Z) (Fin 1%Z) (Fin 1%Z) [1; 0] None None
    [AStep (zorc 4 [1; 0]); AStep (zorc 3 [1; 0]); AStep (zorc 0 [1; 0])].

Lemma nan_hides : exists s log, exec (zc_nan 2) s log /\
  s_be s = [PInf] /\ In (0, 2%Z) log /\ c_f (zc_nan 2) 2%Z = Fin 4%Z.
Proof. run_script zscript_nan1. vm_compute. intuition. Qed.

Lemma nan_mismatch : exists s log, exec (zc_nan 1) s log /\
  s_be s = [Fin 4%Z] /\ s_bp s = [5%Z] /\ c_f (zc_nan 1) 5%Z = Fin 25%Z.
Proof. run_script zscript_nan2. vm_compute. intuition. Qed.
