(** * Plotting from the history (cbx/plotting.py)

    Drawing is external; the model is the list of rows handed to matplotlib, with the index
    errors.  Not modelled: the projection onto two coordinates, the one-dimensional case, the
    origins [x[pidx]] of the drift arrows. *)
From Coq Require Import String List Arith Bool.
From Verif Require Import Scalar Np State Pdyn.
Import ListNotations.
Open Scope string_scope.
Open Scope nat_scope.
Open Scope list_scope.

(** contour_2D, plotting.py:24-25: [not y] is true for None and for 0. *)
Definition y_limit {A} (is_zero : A -> bool) (x_lim : A) (y : option A) : A :=
  match y with None => x_lim | Some v => if is_zero v then x_lim else v end.

Section Plot.
  Context {K V : Type}.
  Notation hval := (hval K V).

  (** [entry[num_run]] for an entry of history['x'], ['consensus'], ['drift'] *)
  Definition x_row (num_run : nat) (h : hval) : res (list V) :=
    match h with HX x => take1 x num_run | _ => Err TypeError end.
  (** plot_c, plotting.py:283-304: None is skipped *)
  Definition c_row (num_run : nat) (h : hval) : res (list V) :=
    match h with HCons (Some c) => take1 c num_run | HCons None => Ok [] | _ => Err TypeError end.
  Definition d_row (num_run : nat) (h : hval) : res (list V) :=
    match h with HDrift (Some d) => take1 d num_run | _ => Err TypeError end.

  (** what is drawn in one frame *)
  Record frame : Type := mkframe { fr_it : nat; fr_x : list V; fr_c : option (list V); fr_d : option (list V) }.

  Definition opt_row (f : hval -> res (list V)) (h : option (list hval)) (i : nat) : res (option (list V)) :=
    match h with None => Ok None | Some l => v <- take1 l i ;; r <- f v ;; Ok (Some r) end.

  (** plot_at_ind, plotting.py:399-417; init_plot, plotting.py:385-397, makes the same accesses with i = 0
      (there a consensus None raises; a recorded consensus is never None). *)
  Definition plot_at_ind (num_run : nat) (hx : list hval) (hc hd : option (list hval)) (i : nat) : res frame :=
    v <- take1 hx i ;;
    x <- x_row num_run v ;;
    c <- opt_row (c_row num_run) hc i ;;
    d <- opt_row (d_row num_run) hd i ;;
    Ok (mkframe i x c d).

  (** run_plots, plotting.py:434-457: the loop over range(max_it) *)
  Fixpoint plot_loop (num_run freq : nat) (hx : list hval) (hc hd : option (list hval)) (i left : nat) : res (list frame) :=
    match left with
    | 0 => Ok []
    | S left' =>
        if freq =? 0 then Err ZeroDivision
        else if i mod freq =? 0 then
          f <- plot_at_ind num_run hx hc hd i ;;
          r <- plot_loop num_run freq hx hc hd (S i) left' ;; Ok (f :: r)
        else plot_loop num_run freq hx hc hd (S i) left'
    end.

  (** PlotDynamicHistory(dyn, num_run, plot_consensus, plot_drift), plotting.py:357-382, followed by run_plots(freq). *)
  Definition plot_history (num_run freq : nat) (plot_consensus plot_drift : bool) (hist : list (string * list hval))
      : res (list frame) :=
    match hist_get "x" hist with
    | None => Err RuntimeErr
    | Some hx =>
        let hc := if plot_consensus then hist_get "consensus" hist else None in
        let hd := if plot_drift then hist_get "drift" hist else None in
        _ <- plot_at_ind num_run hx hc hd 0 ;;
        plot_loop num_run freq hx hc hd 0 (length hx - 1)
    end.
End Plot.
