(** * Concrete executions for saved points, per-particle consensus and reset *)
From Coq Require Import String List Arith Bool ZArith Permutation Lia Reals Lra.
From Verif Require Import Scalar Np State Pdyn Exec TermSpec Script ExZ ExBatch MiscFacts ExR.
Import ListNotations.
Open Scope nat_scope.
Open Scope list_scope.

(** batches of 2 of 3 particles, consensus_eval_points recorded *)
Definition zsave : cfg Z Z :=
  {| c_f := sqf; c_vadd := Z.add; c_vsub := Z.sub; c_vscale := zscale;
     c_norm := fun l => Fin (zabs_sum l); c_dmean := fun l => Fin (zabs_sum l);
     c_ccrow := zbest; c_noise := fun dt d z => z; c_pp := zclip;
     c_corr := NoCorr; c_bsize := 2; c_partial := true; c_concat := false;
     c_crit := []; c_savepts := true |}.
Definition zscript_save : option (st Z Z * list (nat * Z)) :=
  script zsave zx1 (Fin 1%Z) (Fin 1%Z) (Fin 1%Z) (Fin 1%Z) [2; 0; 1] None None [AStep (zorc 1 [1; 2; 0])].

Lemma save_example : exists s log, exec zsave s log /\ plain zsave (s_N s) /\ c_savepts zsave = true /\
  s_energy s = [[Fin 49; PInf; Fin 81]; [Fin 9; PInf; Fin 64]]%Z /\
  exists s', perms_valid (zorc 2 [1; 2; 0]) s /\ step zsave (zorc 2 [1; 2; 0]) s = Ok s' /\
    s_cep s' <> Some (s_x s') /\ s_cep s' <> s_cep s.
Proof.
  run_script zscript_save. split; [split; [left; apply (zbest_one sqf NoCorr 2 true false [])|reflexivity]|]. split; [reflexivity|].
  split; [reflexivity|]. eexists. split; [apply zperm_valid; reflexivity|]. split; [vm_compute; reflexivity|].
  split; discriminate.
Qed.

(** one consensus point per particle, full update from batches of 2 of 3 particles *)
Definition zpolar (partial : bool) : cfg Z Z :=
  {| c_f := sqf; c_vadd := Z.add; c_vsub := Z.sub; c_vscale := zscale;
     c_norm := fun l => Fin (zabs_sum l); c_dmean := fun l => Fin (zabs_sum l);
     c_ccrow := fun e x a => map (fun v => v + 1)%Z x; c_noise := fun dt d z => z; c_pp := zclip;
     c_corr := NoCorr; c_bsize := 2; c_partial := partial; c_concat := false;
     c_crit := []; c_savepts := false |}.
Definition zscript_polar : option (st Z Z * list (nat * Z)) :=
  script (zpolar false) zx1 (Fin 1%Z) (Fin 1%Z) (Fin 1%Z) (Fin 1%Z) [2; 0; 1] None None [].

Lemma polar_example : exists s log, exec (zpolar false) s log /\ consensus_per_particle (zpolar false) /\
  1 < c_bsize (zpolar false) < s_N s /\ s_active s = [0; 1] /\ perms_valid (zorc 1 [1; 2; 0]) s.
Proof.
  run_script zscript_polar. split; [intros e x a; apply map_length|]. split; [cbn; lia|]. split; [reflexivity|].
  apply zperm_valid; reflexivity.
Qed.

(** reset after three steps *)
Lemma reset_example : exists s log, exec zc1 s log /\ s_be s = [Fin 16; Fin 4]%Z /\ s_nfe s = [6; 4] /\ s_it s = 3.
Proof. destruct zex1 as (s & log & E & _ & _ & _ & _ & _ & A & B & _ & _ & C & _). exists s, log. auto. Qed.

(** the identity scheduler, dt = 1/2, max_time = 5/4: three steps *)
Definition rid (s : st R rvec) : res (st R rvec) := Ok s.
Lemma rid_ok : param_sched rid /\ total_sched rid /\ keeps_dt rid.
Proof.
  split; [|split].
  - intros s s' H. inversion H; subst. exists (s_alpha s'), (s_sigma s'), (s_lamda s'), (s_dt s'). split; auto. destruct s'; reflexivity.
  - intros s. exists s. reflexivity.
  - intros s s' H. inversion H; auto.
Qed.

Lemma time_example : exists s, exec (rcfg 2 (fun v => v) [CMaxTime (Fin (5/4)%R)]) s [] /\
  1 <= s_M s /\ plain (rcfg 2 (fun v => v) [CMaxTime (Fin (5/4)%R)]) (s_N s) /\
  param_sched rid /\ total_sched rid /\ keeps_dt rid /\ in_range (fun _ => rorc) s /\
  s_t s = Fin 0%R /\ s_dt s = Fin (/2)%R /\ (5/4 <= 0 + INR 3 * /2)%R /\ (forall k, k < 3 -> (0 + INR k * /2 < 5/4)%R).
Proof.
  destruct (rinit_ok 2 (fun v => v) [CMaxTime (Fin (5/4)%R)]) as (s & _ & E & HM & _ & Ht & Hd & _ & G & P); [lia|].
  exists s. destruct rid_ok as (A & B & C). split; auto. split; [lia|]. split; auto. split; auto. split; auto. split; auto.
  split; [intros i; auto|]. split; auto. split; auto. split.
  - cbn. lra.
  - intros k Hk. destruct k as [|[|[|]]]; try lia; cbn; lra.
Qed.
