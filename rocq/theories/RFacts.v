(** * Small facts on real numbers *)
From Coq Require Import Reals ZArith Lia Lra List.
Import ListNotations.
Open Scope R_scope.

Lemma nat_above : forall r : R, exists n, r < INR n.
Proof.
  intros r. exists (Z.to_nat (up r)). rewrite INR_IZR_INZ. destruct (archimed r) as [H _].
  apply Rgt_lt in H. apply Rlt_le_trans with (1 := H). apply IZR_le. lia.
Qed.
