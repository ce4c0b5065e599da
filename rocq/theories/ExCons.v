(** * A concrete ensemble for the consensus theorems *)
From Coq Require Import List Arith Reals Permutation Lia Lra.
From Verif Require Import Scalar RVec ConsSpec.
Import ListNotations.
Open Scope R_scope.

Definition exE : list (fl R) := [Fin 3; Fin 1; PInf; Fin 2].
Definition exX : list (list R) := [[0; 1]; [2; 5]; [100; -7]; [4; 0]].

Lemma exE_adm : forall a, 0 < a -> admissible a exE.
Proof.
  intros a Ha. split.
  - intros e He. cbn in He. repeat (destruct He as [<-|He]; [first [left; eexists; reflexivity | right; auto]|]). destruct He.
  - exists 1. cbn. auto.
Qed.
Lemma exE0_adm : admissible 0 [Fin 3; Fin 1; Fin 2; Fin 2].
Proof.
  split.
  - intros e He. cbn in He. repeat (destruct He as [<-|He]; [left; eexists; reflexivity|]). destruct He.
  - exists 1. cbn. auto.
Qed.
Lemma exX_ens : ensemble (length exE) 2 exX.
Proof. split; [reflexivity|]. intros p Hp. cbn in Hp. repeat (destruct Hp as [<-|Hp]; [reflexivity|]). destruct Hp. Qed.
Lemma exE_unique : forall n e, n <> 1%nat -> nth_error exE n = Some (Fin e) -> 1 + 1 <= e.
Proof.
  intros n e Hn H. destruct n as [|[|[|[|n]]]]; cbn in H; try discriminate; try lia; try (injection H as <-; lra).
  destruct n; discriminate.
Qed.
Lemma exX_diam : forall p, In p exX -> Rabs (coord 0 p - coord 0 [2; 5]) <= 98.
Proof.
  intros p Hp. cbn in Hp. repeat (destruct Hp as [<-|Hp]; [unfold coord; cbn; unfold Rabs; destruct (Rcase_abs _); lra|]). destruct Hp.
Qed.
