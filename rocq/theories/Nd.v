(** * n-dimensional arrays with NumPy broadcasting

    An array is its shape with a function from index tuples to entries; only indices inside
    the shape matter. *)
From Coq Require Import List Arith Bool Reals.
From Verif Require Import Scalar Np RVec Consensus.
Import ListNotations.
Open Scope nat_scope.

Record nd (A : Type) : Type := mknd { shape : list nat; get : list nat -> A }.
Arguments mknd {A}.
Arguments shape {A}.
Arguments get {A}.

(** NumPy's broadcasting rule for one dimension. *)
Definition bdim (a b : nat) : option nat :=
  if a =? b then Some a else if a =? 1 then Some b else if b =? 1 then Some a else None.

(** ... and for shapes given from the last axis to the first *)
Fixpoint brev (r1 r2 : list nat) : option (list nat) :=
  match r1, r2 with
  | [], r => Some r
  | r, [] => Some r
  | a :: r1, b :: r2 =>
      match bdim a b, brev r1 r2 with Some c, Some r => Some (c :: r) | _, _ => None end
  end.
Definition bshape (s1 s2 : list nat) : option (list nat) := option_map (@rev nat) (brev (rev s1) (rev s2)).

(** The index of a broadcast operand: leading indices are dropped, axes of length one read
    entry 0. *)
Fixpoint proj_rev (r idx : list nat) : list nat :=
  match r, idx with
  | n :: r, i :: idx => (if n =? 1 then 0 else i) :: proj_rev r idx
  | _, _ => []
  end.
Definition bget {A} (x : nd A) (idx : list nat) : A := get x (rev (proj_rev (rev (shape x)) (rev idx))).

(** A binary ufunc; incompatible shapes raise ValueError. *)
Definition lift2 {A B C} (f : A -> B -> C) (x : nd A) (y : nd B) : res (nd C) :=
  match bshape (shape x) (shape y) with
  | Some s => Ok (mknd s (fun i => f (bget x i) (bget y i)))
  | None => Err ShapeError
  end.
Definition lift1 {A B} (f : A -> B) (x : nd A) : nd B := mknd (shape x) (fun i => f (get x i)).
Definition scalar {A} (a : A) : nd A := mknd [] (fun _ => a).

(** [x += y] for an existing array: the result must have the shape of x. *)
Definition iadd {A} (f : A -> A -> A) (x y : nd A) : res (nd A) :=
  z <- lift2 f x y ;;
  if list_eq_dec Nat.eq_dec (shape z) (shape x) then Ok z else Err ShapeError.

(** [x[..., None]], [x[..., None, :]], [x[..., None, None]] *)
Definition newaxis_last {A} (x : nd A) : nd A := mknd (shape x ++ [1]) (fun i => get x (removelast i)).
Definition newaxis_before_last {A} (x : nd A) : nd A :=
  mknd (removelast (shape x) ++ [1; last (shape x) 0])
       (fun i => get x (removelast (removelast i) ++ [last i 0])).

(** the last axis: softmax over it, as [exp(w - logsumexp(w, axis=-1, keepdims=True))] *)
Definition softmax_last (w : nd (fl R)) : nd (fl R) :=
  mknd (shape w)
       (fun i => nth (last i 0) (softmax (map (fun j => get w (removelast i ++ [j])) (seq 0 (last (shape w) 0)))) NaN).

(** [np.sum(x, axis=-3)]; raises for arrays with fewer axes *)
Definition sum_axis3 (x : nd (fl R)) : res (nd (fl R)) :=
  match rev (shape x) with
  | b :: a :: n :: r =>
      Ok (mknd (rev r ++ [a; b])
               (fun i => match rev i with
                         | ib :: ia :: q => fsum (map (fun j => get x (rev q ++ [j; ia; ib])) (seq 0 n))
                         | _ => NaN
                         end))
  | _ => Err ShapeError
  end.
