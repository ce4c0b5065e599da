(** * The NumPy operations used by the dynamics

    An array of shape [(M, N)] (cells: energies, or whole particles) is a list of
    [M] rows with [N] cells each.  Only the two leading axes are represented
    by lists; the remaining axes live inside the cell.
    Operations that NumPy may reject return an exception as a value. *)

From Coq Require Import List Arith Bool Lia.
From Verif Require Import Scalar.
Import ListNotations.

Inductive exn : Type :=
| ShapeError        (* operands / value could not be broadcast *)
| IndexError
| ValueError
| TypeError
| KeyError
| RuntimeErr
| NotImplemented
| ZeroDivision.

Inductive res (A : Type) : Type :=
| Ok (a : A)
| Err (e : exn).
Arguments Ok {A} a.
Arguments Err {A} e.

Definition bind {A B} (r : res A) (k : A -> res B) : res B :=
  match r with Ok a => k a | Err e => Err e end.
Notation "x <- r ;; k" := (bind r (fun x => k)) (at level 60, r at next level, right associativity).

Definition arr (A : Type) : Type := list (list A).

(** [arr.shape[1]] of a rectangular array with at least one row. *)
Definition shape1 {A} (a : arr A) : nat := match a with [] => 0 | r :: _ => length r end.

Fixpoint mapi_from {A B} (i : nat) (f : nat -> A -> B) (l : list A) : list B :=
  match l with [] => [] | a :: l' => f i a :: mapi_from (S i) f l' end.
Definition mapi {A B} (f : nat -> A -> B) (l : list A) : list B := mapi_from 0 f l.

Fixpoint mapM {A B} (f : A -> res B) (l : list A) : res (list B) :=
  match l with
  | [] => Ok []
  | a :: l' => b <- f a ;; bs <- mapM f l' ;; Ok (b :: bs)
  end.

Definition mapiM {A B} (f : nat -> A -> res B) (l : list A) : res (list B) :=
  mapM (fun p => f (fst p) (snd p)) (combine (seq 0 (length l)) l).

Fixpoint map2 {A B C} (f : A -> B -> C) (l1 : list A) (l2 : list B) : list C :=
  match l1, l2 with
  | a :: l1', b :: l2' => f a b :: map2 f l1' l2'
  | _, _ => []
  end.

(** Broadcasting along one axis: equal lengths, or one of the lengths is 1. *)
Definition bpairs {A B} (l1 : list A) (l2 : list B) : res (list (A * B)) :=
  if length l1 =? length l2 then Ok (combine l1 l2)
  else match l1, l2 with
       | [a], _ => Ok (map (fun b => (a, b)) l2)
       | _, [b] => Ok (map (fun a => (a, b)) l1)
       | _, _ => Err ShapeError
       end.

(** Elementwise operation of two arrays with broadcasting over both axes. *)
Definition bc2 {A B C} (f : A -> B -> C) (X : arr A) (Y : arr B) : res (arr C) :=
  rows <- bpairs X Y ;;
  mapM (fun p => cells <- bpairs (fst p) (snd p) ;; Ok (map (fun q => f (fst q) (snd q)) cells)) rows.

(** Broadcasting a value along one axis to a given length (assignment). *)
Definition bto {A} (n : nat) (l : list A) : res (list A) :=
  if length l =? n then Ok l
  else match l with [a] => Ok (repeat a n) | _ => Err ShapeError end.

(** In-place [X op= Y]: [Y] must broadcast to the shape of [X]. *)
Definition iop2 {A B} (f : A -> B -> A) (X : arr A) (Y : arr B) : res (arr A) :=
  Y1 <- bto (length X) Y ;;
  mapM (fun p => y <- bto (length (fst p)) (snd p) ;; Ok (map2 f (fst p) y)) (combine X Y1).

(** Fancy indexing along one axis. *)
Definition take1 {A} (l : list A) (i : nat) : res A :=
  match nth_error l i with Some a => Ok a | None => Err IndexError end.
Definition takeM {A} (l : list A) (idx : list nat) : res (list A) := mapM (take1 l) idx.

(** Position of the last occurrence (NumPy assignment with repeated indices
    keeps the last value). *)
Fixpoint last_index (m : nat) (l : list nat) : option nat :=
  match l with
  | [] => None
  | a :: l' =>
      match last_index m l' with
      | Some k => Some (S k)
      | None => if a =? m then Some 0 else None
      end
  end.

(** [old[idx] = vals] along one axis. *)
Definition put1 {A} (idx : list nat) (old vals : list A) : res (list A) :=
  if forallb (fun i => i <? length old) idx then
    v <- bto (length idx) vals ;;
    Ok (mapi (fun i a => match last_index i idx with Some k => nth k v a | None => a end) old)
  else Err IndexError.

(** The index objects used by the code: [...], [(runs, ...)], [(runs, batch, ...)]. *)
Inductive idx : Type :=
| IAll
| IRuns (rs : list nat)
| IBatch (rs : list nat) (bs : list (list nat)).

Definition gather {A} (i : idx) (X : arr A) : res (arr A) :=
  match i with
  | IAll => Ok X
  | IRuns rs => takeM X rs
  | IBatch rs bs =>
      rows <- takeM X rs ;;
      (if length rows =? length bs
       then mapM (fun p => takeM (fst p) (snd p)) (combine rows bs)
       else Err ShapeError)
  end.

(** [X[i] = Y]. *)
Definition scatter {A} (i : idx) (X Y : arr A) : res (arr A) :=
  match i with
  | IAll => iop2 (fun _ b => b) X Y
  | IRuns rs =>
      if forallb (fun r => r <? length X) rs then
        Y1 <- bto (length rs) Y ;;
        mapiM (fun m row => match last_index m rs with
                            | Some k => bto (length row) (nth k Y1 [])
                            | None => Ok row end) X
      else Err IndexError
  | IBatch rs bs =>
      if forallb (fun r => r <? length X) rs && (length rs =? length bs) then
        Y1 <- bto (length rs) Y ;;
        mapiM (fun m row => match last_index m rs with
                            | Some k => put1 (nth k bs []) row (nth k Y1 [])
                            | None => Ok row end) X
      else Err IndexError
  end.

(** [np.where(mask)[0]]. *)
Fixpoint where_from (i : nat) (l : list bool) : list nat :=
  match l with
  | [] => []
  | b :: l' => if b then i :: where_from (S i) l' else where_from (S i) l'
  end.
Definition np_where (l : list bool) : list nat := where_from 0 l.

(** [a.argmin()] together with [a.min()]: the first minimum, or the first NaN if
    there is one (NumPy propagates NaN). *)
Section Argmin.
  Context {K : Type} {O : KOps K}.
  Fixpoint argmin_from (i bi : nat) (bv : fl K) (l : list (fl K)) : nat * fl K :=
    match l with
    | [] => (bi, bv)
    | a :: l' =>
        if is_nan bv then (bi, bv)
        else if is_nan a then (i, a)
        else if fltb a bv then argmin_from (S i) i a l'
        else argmin_from (S i) bi bv l'
    end.
  Definition argmin (l : list (fl K)) : res (nat * fl K) :=
    match l with
    | [] => Err ValueError
    | a :: l' => Ok (argmin_from 1 0 a l')
    end.
End Argmin.
