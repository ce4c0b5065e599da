(** * Concrete cases for losses and accuracy *)
From Coq Require Import String List Arith Bool Reals Lra Lia Permutation.
From Verif Require Import Scalar Np Dispatch Torch TorchFacts TorchEval TorchEvalSpec TorchEvalFacts.
Import ListNotations.
Open Scope string_scope.
Open Scope list_scope.
Open Scope R_scope.

(** a network on real numbers with scores x*u and b *)
Definition lin (u b : R) : module R := [("w", ([1%nat], [u])); ("b", ([1%nat], [b]))].
Definition lin_scores (m : module R) (x : R) : res (list R) :=
  match m with [(_, (_, [u])); (_, (_, [b]))] => Ok [x * u; b] | _ => Err RuntimeErr end.
Definition lin_forward (m : module R) (xs : list R) : res (list (list (fl R))) := mapM (fun x => l <- lin_scores m x ;; Ok (map Fin l)) xs.
Definition lin_prop : list (string * prop) := [("w", ([1%nat], (0%nat, 1%nat))); ("b", ([1%nat], (1%nat, 2%nat)))].

Lemma lin_arch : same_architecture [lin 1 2; lin 3 4] [("w", [1%nat]); ("b", [1%nat])].
Proof. split; [|split]. - repeat constructor; cbn; intuition discriminate. - discriminate. - repeat constructor. Qed.
Lemma lin_params : forall u b, eval_params [u; b] lin_prop = Ok (lin u b).
Proof. reflexivity. Qed.
Lemma lin_rows : forall u b u' b' xs, functional_call lin_forward (lin u' b') (lin u b) xs = Ok (map (fun x => map Fin [x * u; b]) xs).
Proof. intros. change (lin_forward (lin u b) xs = Ok (map (fun x => map Fin [x * u; b]) xs)). induction xs as [|x xs IH]; [reflexivity|]. unfold lin_forward in *. cbn [mapM map]. rewrite IH. reflexivity. Qed.

(** scores 1*1 < 2, 3*1 > 2, 2*1 = 2: labels 1, 0, 0 *)
Definition lin_loader : list (list R * list nat) := [([1; 3], [1%nat; 0%nat]); ([2], [1%nat])].
Lemma lin_labelled : labelled lin_loader. Proof. repeat constructor. Qed.
Lemma lin_acc : eval_acc lin_forward (lin 0 0) [1; 2] lin_prop lin_loader = Ok (Fin (2 / 3)).
Proof.
  destruct (accuracy lin_forward (lin 0 0) (lin 1 2) [1; 2] lin_prop (fun x => [x * 1; 2]) eq_refl (lin_rows 1 2 0 0) ltac:(discriminate) lin_loader lin_labelled ltac:(discriminate)) as (k & T & E).
  rewrite E. clear E. do 2 f_equal. replace k with 2%nat; [cbn; lra|]. eapply tally_unique; [|exact T]. cbn [samples lin_loader flat_map combine fst snd app].
  apply ta_yes; [|apply ta_yes; [|apply ta_no; [|constructor]]]; unfold first_max; cbn [fst snd length].
  - split; [lia|]. split; intros [|[|j]] Hj; cbn; try lra; lia.
  - split; [lia|]. split; intros [|[|j]] Hj; cbn; try lra; lia.
  - intros (_ & _ & H). specialize (H 0%nat ltac:(lia)). cbn in H. lra.
Qed.
(** a batch of one image with two labels counts two hits *)
Lemma lin_two : eval_acc lin_forward (lin 0 0) [1; 2] lin_prop [([3], [0%nat; 0%nat])] = Ok (Fin (2 / 1)).
Proof.
  unfold eval_acc. cbn [acc_loop]. unfold eval_model. rewrite lin_params. cbn [bind]. rewrite lin_rows. cbn [bind map mapM].
  destruct (argmax_first_max [3 * 1; 2] ltac:(discriminate)) as (i & E & F). cbn [map] in E. rewrite E. cbn [bind].
  replace i with 0%nat. 2:{ eapply first_max_unique; [|exact F]. split; [cbn; lia|]. split; intros [|[|j]] Hj; cbn in *; try lra; lia. }
  change (Ok (fdiv (Fin (INR 2)) (Fin (INR 1))) = Ok (Fin (2 / 1))). rewrite TolFacts.fdiv_real by (cbn; lra). cbn [INR]. do 2 f_equal.
Qed.
Lemma lin_too_much : exists (forward : module R -> list R -> res (list (list (fl R)))) (model ps : module R) w pprop (h : R -> list R) loader v,
  eval_params w pprop = Ok ps /\ (forall xs, functional_call forward model ps xs = Ok (map (fun x => map Fin (h x)) xs)) /\ (forall x, h x <> []) /\
  eval_acc forward model w pprop loader = Ok (Fin v) /\ 1 < v.
Proof.
  exists lin_forward, (lin 0 0), (lin 1 2), [1; 2], lin_prop, (fun x => [x * 1; 2]), [([3], [0%nat; 0%nat])], (2 / 1).
  split; [exact (lin_params 1 2)|]. split; [exact (lin_rows 1 2 0 0)|]. split; [discriminate|]. split; [exact lin_two|lra].
Qed.
