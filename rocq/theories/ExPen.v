(** * A concrete execution with changing penalty weights *)
From Coq Require Import String List Arith Bool ZArith Permutation Lia.
From Verif Require Import Scalar Np State Pdyn Exec Script ExZ ExVar RegSched Variant VarSpec PenSpec.
Import ListNotations.
Open Scope nat_scope.
Open Scope list_scope.

(** minimise 10 v subject to v^2 = 0 *)
Definition pnf (v : Z) : fl Z := Fin (10 * v)%Z.
Definition pnreg (v : Z) : fl Z := Fin (v * v)%Z.
Definition pncfg : cfg Z Z := zcfg sqf NoCorr 2 false false [].
Definition pinner := reg_inner (reg_call pnf pnreg (fun y => y)) None (Fin 1%Z).

Notation pex := (pexec pnf pnreg (fun y => y) (Fin 1%Z) None (Fin 1%Z) pncfg).

Lemma pen_case : exists s ob log, pex (s, ob) log /\ s_be s = [Fin (-21)%Z] /\ s_bp s = [(-3)%Z] /\
  log = [(0, (-3)%Z, Fin (-21)%Z); (0, 0%Z, Fin 0%Z); (0, (-3)%Z, Fin 870%Z); (0, 0%Z, Fin 0%Z)] /\
  penalty_value pnf pnreg (fun y => y) ob 0 (-3)%Z = Fin 870%Z /\ penalty_value pnf pnreg (fun y => y) ob 0 0%Z = Fin 0%Z.
Proof.
  assert (exists n s e log, vexec pinner (fun _ => mkregobj (Fin 1%Z) None) pncfg n (s, e) log /\ constructed pncfg s /\ e = mkregobj (Fin 1%Z) None /\
    s_active s = [0] /\ s_N s = 2 /\ s_M s = 1 /\
    exists s1 e1, vstep pinner pncfg (zorc 0 [0; 1]) (s, e) = Ok (s1, e1) /\ s_active s1 = [0] /\ s_M s1 = 1 /\ s_N s1 = 2 /\
      priced pnf pnreg (fun y => y) e s s1 = [(0, (-3)%Z, Fin (-21)%Z); (0, 0%Z, Fin 0%Z)] /\
      e1 = mkregobj (Fin 1%Z) (Some [[Fin 1%Z]]) /\
      exists s2 e2, vstep pinner pncfg (zorc 0 [0; 1]) (set_fcalls (s_fcalls s1) (set_nfe (s_nfe s1) s1), mkregobj (Fin 1%Z) (Some [[Fin 100%Z]])) = Ok (s2, e2) /\
        priced pnf pnreg (fun y => y) (mkregobj (Fin 1%Z) (Some [[Fin 100%Z]])) (set_fcalls (s_fcalls s1) (set_nfe (s_nfe s1) s1)) s2 = [(0, (-3)%Z, Fin 870%Z); (0, 0%Z, Fin 0%Z)] /\
        e2 = mkregobj (Fin 1%Z) (Some [[Fin 100%Z]]) /\ s_be s2 = [Fin (-21)%Z] /\ s_bp s2 = [(-3)%Z]) as H.
  { run_vscript (vscript pinner (fun _ => mkregobj (Fin 1%Z) None) pncfg [[-3; 0]]%Z (Fin 1%Z) (Fin 0%Z) (Fin 0%Z) (Fin 1%Z) [0; 1] []).
    split. { exists [[-3; 0]]%Z, false, (Fin 1%Z), (Fin 0%Z), (Fin 0%Z), (Fin 1%Z), (fun _ => [0; 1]), None, [], None.
      split; [split; [reflexivity|repeat constructor]|]. split; [cbn; lia|]. split; [cbn; lia|]. split. { intros m _. apply Permutation_refl. }
      split; [discriminate|]. vm_compute. reflexivity. }
    split; [reflexivity|]. split; [reflexivity|]. split; [reflexivity|]. split; [reflexivity|].
    eexists _, _. split; [vm_compute; reflexivity|]. split; [reflexivity|]. split; [reflexivity|]. split; [reflexivity|]. split; [vm_compute; reflexivity|].
    split; [reflexivity|]. eexists _, _. split; [vm_compute; reflexivity|]. split; [vm_compute; reflexivity|]. split; [reflexivity|]. split; reflexivity. }
  destruct H as (n & s & e & log & _ & HC & -> & A0 & N0 & M0 & s1 & e1 & H1 & A1 & M1 & N1 & P1 & -> & s2 & e2 & H2 & P2 & -> & B1 & B2).
  eexists s2, _, _. split.
  - eapply px_step; [eapply px_weights; [eapply px_step; [apply px_init; exact HC| | |exact H1]| |reflexivity]| | |exact H2].
    + intros m Hm. rewrite N0. apply Permutation_refl.
    + rewrite A0. discriminate.
    + split; auto. exists [[Fin 1%Z]], [[Fin 100%Z]]. repeat split. intros k row E. destruct k as [|[|]]; try discriminate. injection E as <-. auto.
    + intros m Hm. cbn [o_perm zorc]. replace (s_N _) with 2 by (symmetry; exact N1). apply Permutation_refl.
    + replace (s_active _) with [0] by (symmetry; exact A1). discriminate.
  - rewrite P1, P2. repeat split; auto.
Qed.
