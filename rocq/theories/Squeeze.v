(** * Objectives that squeeze their result

    accelerated_sinus, nd_sinus and p_4th_order end with [.squeeze()] (objectives.py:574, 589, 600), which removes all
    axes of length one. *)
From Coq Require Import List Arith Bool.
From Verif Require Import Scalar Np Nd Objective ObjSpec.
Import ListNotations.
Open Scope nat_scope.

Section Squeeze.
  Context {A B : Type}.
  (** [y.squeeze()] *)
  Definition squeeze_shape (s : list nat) : list nat := filter (fun n => negb (n =? 1)) s.
  Fixpoint unsqueeze (s i : list nat) : list nat :=
    match s with
    | [] => []
    | n :: s => if n =? 1 then 0 :: unsqueeze s i else match i with [] => 0 :: unsqueeze s [] | a :: i => a :: unsqueeze s i end
    end.
  Definition squeeze {T} (y : nd T) : nd T := mknd (squeeze_shape (shape y)) (fun i => get y (unsqueeze (shape y) i)).
  (** reduction over the last axis, then squeeze; a number has no last axis *)
  Definition squeezed (g : list A -> B) (x : nd A) : res (nd B) :=
    match rev (shape x) with
    | [] => Err IndexError
    | d :: _ => Ok (squeeze (mknd (removelast (shape x)) (fun i => g (map (fun j => get x (i ++ [j])) (seq 0 d)))))
    end.
End Squeeze.
