(** * Plots of one-dimensional dynamics and plots of the objective (cbx/plotting.py)

    Drawing is external; the model is what is handed to matplotlib, together with the number of evaluations of the
    objective.  A particle of a one-dimensional dynamic is a vector with one coordinate; the objective of the dynamic
    (promoted, C57) is evaluated point by point. *)
From Coq Require Import List Arith Bool Reals.
From Verif Require Import Scalar Np State Pdyn RVec Cbo Plotting.
Import ListNotations.

Section Pictures.
  Notation F := (fl R).
  Notation st := (st R vec).

  (** points of the scatter plot of the particles, of the consensus (None: not drawn or not moved), the attribute
      plot_drift afterwards, and the number of points at which the objective was evaluated *)
  Record pic : Type := mkpic { q_x : list (F * F); q_c : option (list (F * F)); q_drift : bool; q_evals : nat }.

  (** [row[:, i]] *)
  Definition column (i : nat) (row : list vec) : res (list F) := mapM (fun v => take1 v i) row.

  (** the second coordinates, plotting.py:171-175 and 272-276 ([dims[0]] is [i]): [f] in the points or zeros *)
  Definition heights (f : vec -> F) (ev : bool) (xs : list F) : list F :=
    if ev then map (fun a => f [a]) xs else map (fun _ => Fin 0%R) xs.
  Definition evals (ev : bool) (xs : list F) : nat := if ev then length xs else 0.

  (** init_plot, plotting.py:114-144, for [self.d == 1]: init_x 157-182 (the array of heights has shape (1,N,1); scatter
      ravels it), init_consensus 184-206, init_drift 208-227, which switches plot_drift off.  The plot of the objective
      is [plot_1D] below. *)
  Definition first_pic (f : vec -> F) (num_run i : nat) (ev pc pd : bool) (s : st) : res pic :=
    row <- take1 (s_x s) num_run ;;
    xs <- column i row ;;
    c <- (if pc then
            r <- take1 (match s_cons s with None => s_x s | Some c => c end) num_run ;;
            cs <- column i r ;;
            Ok (Some (map (fun a => (a, Fin 0%R)) cs))
          else Ok None) ;;
    Ok (mkpic (combine xs (heights f ev xs)) c false (evals ev xs)).

  (** update, plotting.py:237-257, for [self.d == 1]: plot_particles 259-281 (first coordinates from column 0, heights
      from column [i]), plot_c 283-304 (columns 0); plot_d raises an AttributeError (no quiver; TypeError here) *)
  Definition next_pic (f : vec -> F) (num_run i : nat) (ev pc pd : bool) (s : st) : res pic :=
    match s_xold s with
    | None => Err TypeError
    | Some xo =>
        row <- take1 xo num_run ;;
        xs <- column i row ;;
        x0 <- column 0 row ;;
        c <- (if pc then
                match s_cons s with
                | None => Ok None
                | Some c => r <- take1 c num_run ;; cs <- column 0 r ;; Ok (Some (map (fun a => (a, Fin 0%R)) cs))
                end
              else Ok None) ;;
        if pd then Err TypeError else Ok (mkpic (combine x0 (heights f ev xs)) c pd (evals ev xs))
    end.

  (** PlotDynamic(dyn).init_plot() followed by update() after each of the steps that lead to the states [ss] *)
  Fixpoint next_pics (f : vec -> F) (num_run i : nat) (ev pc pd : bool) (ss : list st) : res (list pic) :=
    match ss with
    | [] => Ok []
    | s :: ss' =>
        p <- next_pic f num_run i ev pc pd s ;;
        ps <- next_pics f num_run i ev pc (q_drift p) ss' ;;
        Ok (p :: ps)
    end.
  Definition live_plot (f : vec -> F) (num_run i : nat) (ev pc pd : bool) (s0 : st) (ss : list st) : res (list pic) :=
    p <- first_pic f num_run i ev pc pd s0 ;;
    ps <- next_pics f num_run i ev pc (q_drift p) ss ;;
    Ok (p :: ps).
End Pictures.

(** ** the plot of the objective *)
Open Scope R_scope.

(** numpy.linspace(a, b, n) in exact arithmetic *)
Definition linspace (a b : R) (n : nat) : list R :=
  map (fun k => match n with 1%nat => a | _ => a + INR k * ((b - a) / INR (n - 1)) end) (seq 0 n).

(** plot_1D, plotting.py:5-12: the points of the curve *)
Definition plot_1D (f : list R -> R) (n : nat) (x_min x_max : R) : list (R * R) :=
  map (fun a => (a, f [a])) (linspace x_min x_max n).

(** arrays of two and three axes by their entries *)
Definition arr2 := nat -> nat -> R.
Definition arr3 := nat -> nat -> nat -> R.
Definition tr2 (A : arr2) : arr2 := fun i j => A j i.
Definition tr3 (A : arr3) : arr3 := fun i j k => A k j i.
Definition stack2 (A B : arr2) : arr3 := fun k i j => match k with 0%nat => A i j | _ => B i j end.

(** contour_2D, plotting.py:15-36: meshgrid with its default indexing 'xy' (X[i,j] = x[j], Y[i,j] = y[i]), transposes
    and stack as in line 30; for each (i,j) the point in which the objective is evaluated, Z[...,dims] = XY (an index
    outside raises), and the triples handed to contourf *)
Definition contour_2D (f : list R -> R) (n : nat) (x_min x_max : R) (y_min y_max : option R) (d : nat) (dims : list nat)
    : res (list (list (R * R * R))) :=
  let zero r := if Req_EM_T r 0 then true else false in
  let x := linspace x_min x_max n in
  let y := linspace (y_limit zero x_min y_min) (y_limit zero x_max y_max) n in
  let X : arr2 := fun i j => nth j x 0 in
  let Y : arr2 := fun i j => nth i y 0 in
  let XY := tr3 (stack2 (tr2 X) (tr2 Y)) in
  mapM (fun i => mapM (fun j =>
      z <- put1 dims (repeat 0 d) [XY i j 0%nat; XY i j 1%nat] ;; Ok (X i j, Y i j, f z)) (seq 0 n)) (seq 0 n).
