(** * The regularisation scheduler changes the weights of the objective *)
From Coq Require Import List Arith Bool Reals Lra Lia.
From Verif Require Import Scalar Np NpFacts RFacts PostProc RegSched PenSpec.
Import ListNotations.
Open Scope nat_scope.
Open Scope list_scope.

(** weights as an array of shape (M,1) *)
Definition column (l : list R) : arr (fl R) := map (fun a => [Fin a]) l.

Lemma sched_changes : forall tm ft fl_ lm ms theta lamda theta' lamda' (sc : fl R), sched_update tm ft fl_ lm ms (theta, lamda) = Ok (theta', lamda') ->
  weights_changed (mkregobj sc (Some (column lamda))) (mkregobj sc (Some (column lamda'))).
Proof.
  intros tm ft fa lm ms theta lamda theta' lamda' sc H. unfold sched_update in H.
  destruct (_ && _) eqn:B; [|discriminate]. apply andb_prop in B. destruct B as [B1 B2]. apply Nat.eqb_eq in B1, B2.
  injection H as <- <-. split; auto. eexists _, _. split; [reflexivity|]. split; [reflexivity|]. split.
  - unfold column. rewrite !map_length, map2_length, combine_length. lia.
  - intros k row Hk. unfold column in Hk. rewrite nth_error_map in Hk. destruct (nth_error _ k); [|discriminate]. injection Hk as <-. auto.
Qed.
