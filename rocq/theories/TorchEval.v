(** * Losses and accuracy of networks given by flat vectors (cbx/utils/torch_utils.py:119-147) *)
From Coq Require Import String List Arith Bool Reals.
From Verif Require Import Scalar Np Dispatch Torch.
Import ListNotations.
Open Scope nat_scope.
Open Scope list_scope.

Section Eval.
  Context {A X Y : Type}.
  (** the forward pass of a module as a function of its named parameters (external) *)
  Variable forward : module A -> X -> res Y.

  (** torch.func.functional_call (external): the module with the parameters named in [ps] replaced *)
  Definition functional_call (model ps : module A) (x : X) : res Y :=
    forward (map (fun e => (fst e, match lookup ps (fst e) with Some t => t | None => snd e end)) model) x.
  (** eval_model, torch_utils.py:120-122. *)
  Definition eval_model (x : X) (model : module A) (w : list A) (pprop : list (string * prop)) : res Y :=
    ps <- eval_params w pprop ;; functional_call model ps x.
  (** eval_models, torch_utils.py:125-126; vmap over the first axis of w is the loop over its rows. *)
  Definition eval_models (x : X) (model : module A) (W : list (list A)) (pprop : list (string * prop)) : res (list Y) :=
    mapM (fun w => eval_model x model w pprop) W.
  (** eval_loss and eval_losses, torch_utils.py:129-136. *)
  Definition eval_loss {T L} (x : X) (y : T) (loss : Y -> T -> res L) (model : module A) (w : list A) (pprop : list (string * prop)) : res L :=
    o <- eval_model x model w pprop ;; loss o y.
  Definition eval_losses {T L} (x : X) (y : T) (loss : Y -> T -> res L) (model : module A) (W : list (list A)) (pprop : list (string * prop)) : res (list L) :=
    mapM (fun w => eval_loss x y loss model w pprop) W.
End Eval.

(** torch.argmax along a row: the first largest entry, NaN counts as largest; an empty row raises. *)
Definition above (v best : fl R) : bool :=
  match best with NaN => false | _ => match v with NaN => true | _ => fltb best v end end.
Fixpoint argmax_from (best : fl R) (bi i : nat) (l : list (fl R)) : nat :=
  match l with
  | [] => bi
  | v :: l' => if above v best then argmax_from v i (S i) l' else argmax_from best bi (S i) l'
  end.
Definition argmax_row (l : list (fl R)) : res nat :=
  match l with [] => Err IndexError | v :: l' => Ok (argmax_from v 0 1 l') end.

(** number of True entries of [p == y] for two vectors; equal lengths, or one of length 1 is repeated *)
Definition count_equal (p y : list nat) : res nat :=
  q <- bpairs p y ;; Ok (length (filter (fun u => fst u =? snd u) q)).

(** eval_acc, torch_utils.py:139-147.  A batch is a list of images with a vector of labels; the forward pass of a batch gives one row of scores per
    image.  The quotient of an empty loader is 0/0 of Python's integers, of empty batches 0/0 of tensors. *)
Section Acc.
  Context {A I : Type}.
  Variable forward : module A -> list I -> res (list (list (fl R))).
  Fixpoint acc_loop (model : module A) (w : list A) (pprop : list (string * prop)) (loader : list (list I * list nat)) (r n : nat) : res (nat * nat) :=
    match loader with
    | [] => Ok (r, n)
    | (x, y) :: rest =>
        out <- eval_model forward x model w pprop ;;
        p <- mapM argmax_row out ;;
        k <- count_equal p y ;;
        acc_loop model w pprop rest (r + k) (n + length x)
    end.
  Definition eval_acc (model : module A) (w : list A) (pprop : list (string * prop)) (loader : list (list I * list nat)) : res (fl R) :=
    q <- acc_loop model w pprop loader 0 0 ;;
    match loader with
    | [] => Err ZeroDivision
    | _ => Ok (fdiv (Fin (INR (fst q))) (Fin (INR (snd q))))
    end.
End Acc.
