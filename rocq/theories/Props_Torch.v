(** * C93: losses and accuracy of networks given by flat vectors *)
From Coq Require Import String List Arith Bool Reals Lra Lia Permutation.
From Verif Require Import Scalar Np Dispatch Torch TorchFacts TorchEval TorchEvalSpec TorchEvalFacts ExTorch.
Import ListNotations.
Open Scope string_scope.
Open Scope list_scope.
Open Scope nat_scope.

(** C93. Row n of the flattened ensemble evaluates as the base network with the listed parameters of model n, and as model n itself if all are listed; for every
    forward pass. *)
Theorem C93_row_is_model : forall A X Y (forward : module A -> X -> res Y) (models : list (module A)) names pnames (model : module A),
  same_architecture models names -> NoDup pnames -> incl pnames (map fst names) -> pnames <> [] -> layout_of model = names ->
  exists W pprop, flatten_parameters models pnames = Ok W /\ get_param_properties models (Some pnames) = Ok pprop /\ length W = length models /\
    forall n m w, nth_error models n = Some m -> nth_error W n = Some w -> exists g, graft_of pnames m model g /\
      (forall x, eval_model forward x model w pprop = forward g x) /\ (incl (map fst names) pnames -> g = m).
Proof. exact @model_of_row. Qed.
Print Assumptions C93_row_is_model.
Example C93_row_is_model_applies : same_architecture [lin 1 2; lin 3 4] [("w", [1]); ("b", [1])] /\ NoDup ["b"] /\ incl ["b"] (map fst [("w", [1]); ("b", [1])]) /\
  layout_of (lin 0 0) = [("w", [1]); ("b", [1])].
Proof. split; [exact lin_arch|]. split; [repeat constructor; auto|]. split; [|reflexivity]. intros a [<-|[]]. cbn. auto. Qed.

(** eval_models and eval_losses give the outputs and losses of the models, in their order, raising what the first raising model raises. *)
Theorem C93_losses : forall A X Y (forward : module A -> X -> res Y) T L (loss : Y -> T -> res L) (models : list (module A)) names pnames (model : module A) x y,
  same_architecture models names -> NoDup pnames -> incl pnames (map fst names) -> incl (map fst names) pnames -> pnames <> [] -> layout_of model = names ->
  exists W pprop, flatten_parameters models pnames = Ok W /\ get_param_properties models (Some pnames) = Ok pprop /\
    eval_models forward x model W pprop = mapM (fun m => forward m x) models /\
    eval_losses forward x y loss model W pprop = mapM (fun m => o <- forward m x ;; loss o y) models.
Proof. exact @losses_of_models. Qed.
Print Assumptions C93_losses.
Example C93_losses_applies : incl (map fst [("w", [1]); ("b", [1])]) ["b"; "w"] /\ incl ["b"; "w"] (map fst [("w", [1]); ("b", [1])]) /\ NoDup ["b"; "w"].
Proof. split; [|split]. - intros a [<-|[<-|[]]]; cbn; auto. - intros a [<-|[<-|[]]]; cbn; auto. - repeat constructor; cbn; intuition discriminate. Qed.

(** The predicted label is the first index of a largest score; a NaN score wins. *)
Theorem C93_prediction : (forall l : list R, l <> [] -> exists i, argmax_row (map Fin l) = Ok i /\ first_max l i) /\
  (forall l, In NaN l -> exists i, argmax_row l = Ok i /\ nth_error l i = Some NaN) /\ (forall l i j, first_max l i -> first_max l j -> i = j).
Proof. exact (conj argmax_first_max (conj argmax_nan first_max_unique)). Qed.
Print Assumptions C93_prediction.

(** eval_acc is the number of right predictions over the number of images, whatever the batches. *)
Theorem C93_accuracy : forall A I (forward : module A -> list I -> res (list (list (fl R)))) (model ps : module A) w pprop (h : I -> list R),
  eval_params w pprop = Ok ps -> (forall xs, functional_call forward model ps xs = Ok (map (fun x => map Fin (h x)) xs)) -> (forall x, h x <> []) ->
  forall loader, labelled loader -> samples loader <> [] -> exists k, tally (fun q => first_max (h (fst q)) (snd q)) (samples loader) k /\
    eval_acc forward model w pprop loader = Ok (Fin (INR k / INR (length (samples loader)))%R).
Proof. exact @accuracy. Qed.
Print Assumptions C93_accuracy.
Theorem C93_accuracy_range : forall A I (forward : module A -> list I -> res (list (list (fl R)))) (model ps : module A) w pprop (h : I -> list R),
  eval_params w pprop = Ok ps -> (forall xs, functional_call forward model ps xs = Ok (map (fun x => map Fin (h x)) xs)) -> (forall x, h x <> []) ->
  forall loader v, labelled loader -> samples loader <> [] -> eval_acc forward model w pprop loader = Ok (Fin v) ->
  (0 <= v <= 1)%R /\ (v = 1%R <-> forall x y, In (x, y) (samples loader) -> first_max (h x) y).
Proof. exact @accuracy_range. Qed.
Print Assumptions C93_accuracy_range.
Theorem C93_batching : forall A I (forward : module A -> list I -> res (list (list (fl R)))) (model ps : module A) w pprop (h : I -> list R),
  eval_params w pprop = Ok ps -> (forall xs, functional_call forward model ps xs = Ok (map (fun x => map Fin (h x)) xs)) -> (forall x, h x <> []) ->
  forall l1 l2, labelled l1 -> labelled l2 -> samples l1 <> [] -> Permutation (samples l1) (samples l2) ->
  eval_acc forward model w pprop l1 = eval_acc forward model w pprop l2.
Proof. exact @accuracy_batches. Qed.
Print Assumptions C93_batching.
(** two scores 1*x and 2; images 1, 3, 2 with labels 1, 0, 1: the tie is decided for label 0 *)
Example C93_accuracy_applies : eval_params [1%R; 2%R] lin_prop = Ok (lin 1 2) /\ labelled lin_loader /\
  (forall xs, functional_call lin_forward (lin 0 0) (lin 1 2) xs = Ok (map (fun x => map Fin [(x * 1)%R; 2%R]) xs)) /\
  eval_acc lin_forward (lin 0 0) [1%R; 2%R] lin_prop lin_loader = Ok (Fin (2 / 3)%R).
Proof. exact (conj (lin_params 1 2) (conj lin_labelled (conj (lin_rows 1 2 0 0) lin_acc))). Qed.

(** An empty loader raises ZeroDivisionError. *)
Theorem C93_empty : forall A I (forward : module A -> list I -> res (list (list (fl R)))) (model : module A) w pprop, eval_acc forward model w pprop [] = Err ZeroDivision.
Proof. exact @accuracy_empty. Qed.
Print Assumptions C93_empty.
(** Without one label per image the quotient is no proportion: one image with two labels has accuracy 2. *)
Theorem C93_labels_needed_refuted : exists (forward : module R -> list R -> res (list (list (fl R)))) (model ps : module R) w pprop (h : R -> list R) loader v,
  eval_params w pprop = Ok ps /\ (forall xs, functional_call forward model ps xs = Ok (map (fun x => map Fin (h x)) xs)) /\ (forall x, h x <> []) /\
  eval_acc forward model w pprop loader = Ok (Fin v) /\ (1 < v)%R.
Proof. exact lin_too_much. Qed.
Print Assumptions C93_labels_needed_refuted.
