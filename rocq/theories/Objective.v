(** * Objective promotion and ensemble shapes

    cbx/utils/objective_handling.py and cbx/dynamics/pdyn.py:179-234 on n-dimensional arrays.
    The user's function maps arrays to arrays (or raises); a Python number returned by it is an
    array of shape (). *)
From Coq Require Import String List Arith Bool.
From Verif Require Import Scalar Np Nd.
Import ListNotations.
Open Scope nat_scope.
Open Scope list_scope.

(** number of entries; row-major position of an index and its inverse *)
Definition size (s : list nat) : nat := fold_right Nat.mul 1 s.
Fixpoint ravel (s i : list nat) : nat :=
  match s, i with _ :: s, a :: i => a * size s + ravel s i | _, _ => 0 end.
Fixpoint unravel (s : list nat) (k : nat) : list nat :=
  match s with [] => [] | _ :: s => k / size s :: unravel s (k mod size s) end.

Section Obj.
  Context {A B : Type}.

  (** [x.reshape(s)], row-major *)
  Definition reshape {T} (s : list nat) (x : nd T) : res (nd T) :=
    if size s =? size (shape x) then Ok (mknd s (fun i => get x (unravel (shape x) (ravel s i)))) else Err ShapeError.
  (** [x.reshape(-1, n)] *)
  Definition reshape_rows {T} (n : nat) (x : nd T) : res (nd T) :=
    if n =? 0 then Err ShapeError else reshape [size (shape x) / n; n] x.
  (** [np.atleast_2d(x)] *)
  Definition atleast_2d {T} (x : nd T) : nd T :=
    match shape x with
    | [] => mknd [1; 1] (fun _ => get x [])
    | [n] => mknd [1; n] (fun i => get x (tl i))
    | _ => x
    end.
  (** [x.shape[-1]], [x.shape[-2]] *)
  Definition dim1 {T} (x : nd T) : res nat := match rev (shape x) with a :: _ => Ok a | _ => Err IndexError end.
  Definition dim2 {T} (x : nd T) : res nat := match rev (shape x) with _ :: a :: _ => Ok a | _ => Err IndexError end.
  (** [x[k]] *)
  Definition sub {T} (k : nat) (x : nd T) : nd T := mknd (tl (shape x)) (fun i => get x (k :: i)).

  (** [np.apply_along_axis(f, 1, x)] for a matrix x: the result of the first row fixes the shape, the others are
      assigned (broadcast) to it; no row raises ValueError *)
  Definition apply_rows (f : nd A -> res (nd B)) (x : nd A) : res (nd B) :=
    let P := hd 0 (shape x) in
    outs <- mapM (fun k => f (sub k x)) (seq 0 P) ;;
    match outs with
    | [] => Err ValueError
    | o :: _ =>
        if forallb (fun r => match bshape (shape o) (shape r) with Some s => if list_eq_dec Nat.eq_dec s (shape o) then true else false | None => false end) outs
        then Ok (mknd (P :: shape o) (fun i => bget (nth (hd 0 i) outs o) (tl i)))
        else Err ValueError
    end.

  (** cbx_objective_f1D.apply, objective_handling.py:75-77 *)
  Definition apply_1D (f : nd A -> res (nd B)) (x : nd A) : res (nd B) :=
    let x := atleast_2d x in
    d <- dim1 x ;; x2 <- reshape_rows d x ;; r <- apply_rows f x2 ;; n <- dim2 x ;; reshape_rows n r.
  (** cbx_objective_f2D.apply, objective_handling.py:87-101 *)
  Definition apply_2D (f : nd A -> res (nd B)) (x : nd A) : res (nd B) :=
    let x := atleast_2d x in
    d <- dim1 x ;; x2 <- reshape_rows d x ;; r <- f (atleast_2d x2) ;; n <- dim2 x ;; reshape_rows n r.

  Inductive kind := K1D | K2D | K3D.
  (** _promote_objective, objective_handling.py:4-14 *)
  Definition promote (callable : bool) (f_dim : string) : res kind :=
    if negb callable then Err TypeError
    else if String.eqb f_dim "3D" then Ok K3D
    else if String.eqb f_dim "2D" then Ok K2D
    else if String.eqb f_dim "1D" then Ok K1D
    else Err ValueError.
  Definition apply_kind (k : kind) (f : nd A -> res (nd B)) : nd A -> res (nd B) :=
    match k with K1D => apply_1D f | K2D => apply_2D f | K3D => f end.

  (** cbx_objective.__call__, objective_handling.py:22-37: the counter and the value (promoted '1D' and '2D' functions; also the objectives
      of the library given as '3D') *)
  Definition call (ap : nd A -> res (nd B)) (num_eval : nat) (x : nd A) : res (nd B * nat) :=
    let n := num_eval + size (removelast (shape (atleast_2d x))) in
    y <- ap x ;; Ok (y, n).

  (** check_f_dims, pdyn.py:220-234, for an ensemble of shape M, N, ...; [z] is the sampled array.  Returns num_f_eval. *)
  Definition check_f_dims (fk : nd A -> res (nd B)) (M N : nat) (check : bool) (z : nd A) (nfe : list nat) : res (list nat) :=
    if check then
      y <- fk z ;;
      if list_eq_dec Nat.eq_dec (shape y) [M; N] then Ok (map (fun n => n + N) nfe) else Err ValueError
    else Ok nfe.

  (** init_x, pdyn.py:179-207, without the copy (see Alias.v); [gen] is the randomly drawn array.  Returns x, M, N, d;
      arrays with fewer than two axes cannot be unpacked. *)
  Definition init_x (x : option (nd A)) (M N : nat) (d : option nat) (gen : nat -> nat -> nat -> nd A) : res (nd A * nat * nat * list nat) :=
    x <- match x with
         | None => match d with None => Err RuntimeErr | Some d => Ok (gen M N d) end
         | Some x =>
             Ok match shape x with
                | [n] => mknd [1; 1; n] (fun i => get x (tl (tl i)))
                | [n; d] => mknd [1; n; d] (fun i => get x (tl i))
                | _ => x
                end
         end ;;
    match shape x with
    | M :: N :: ds => Ok (x, M, N, ds)
    | _ => Err ValueError
    end.

  (** init_f, pdyn.py:213-218 *)
  Definition init_f (callable : bool) (f_dim : string) (check : bool) (f : nd A -> res (nd B)) (M N : nat) (z : nd A) : res (kind * list nat) :=
    k <- promote callable f_dim ;;
    n <- check_f_dims (apply_kind k f) M N check z (repeat 0 M) ;;
    Ok (k, n).
End Obj.
