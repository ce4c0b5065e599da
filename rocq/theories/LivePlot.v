(** * Live plotting (PlotDynamic, cbx/plotting.py:38-335)

    Drawing is external; the model is what is handed to matplotlib: the points of the two scatter plots and the tails and
    vectors of the arrows.  Whole points are kept instead of the two coordinates self.dims.  Not modelled: the
    one-dimensional case, the plot of the objective, axes and colours. *)
From Coq Require Import List Arith Bool.
From Verif Require Import Scalar Np State Pdyn.
Import ListNotations.

Section LivePlot.
  Context {K V : Type}.
  Notation st := (st K V).

  (** particles, consensus points and arrows (tails and vectors); None: not drawn *)
  Record live : Type := mklive { lv_x : list V; lv_c : option (list V); lv_d : option (list V * list V) }.

  (** init_drift and plot_d, plotting.py:208-235 and 306-333: x[pidx][..., dims][num_run] and -dr[num_run] *)
  Definition arrows (vneg : V -> V) (num_run : nat) (x dr : arr V) (pidx : idx) : res (list V * list V) :=
    xp <- gather pidx x ;; t <- take1 xp num_run ;; d <- take1 dr num_run ;; Ok (t, map vneg d).

  (** init_plot, plotting.py:114-144: the positions stand in for a missing consensus or drift *)
  Definition live_init (vneg : V -> V) (num_run : nat) (plot_consensus plot_drift : bool) (s : st) : res live :=
    x <- take1 (s_x s) num_run ;;
    c <- (if plot_consensus then r <- take1 (match s_cons s with None => s_x s | Some c => c end) num_run ;; Ok (Some r) else Ok None) ;;
    d <- (if plot_drift then
            r <- match s_drift s with None => arrows vneg num_run (s_x s) (s_x s) IAll | Some dr => arrows vneg num_run (s_x s) dr (s_pidx s) end ;; Ok (Some r)
          else Ok None) ;;
    Ok (mklive x c d).

  (** update, plotting.py:237-257, with plot_particles 259-281, plot_c 283-304 and plot_d 306-333; the attribute x_old does not exist before the
      first step (the AttributeError is TypeError here) *)
  Definition live_update (vneg : V -> V) (num_run : nat) (plot_consensus plot_drift : bool) (s : st) : res live :=
    match s_xold s with
    | None => Err TypeError
    | Some xo =>
        x <- take1 xo num_run ;;
        c <- (if plot_consensus then match s_cons s with None => Ok None | Some c => r <- take1 c num_run ;; Ok (Some r) end else Ok None) ;;
        d <- (if plot_drift then match s_drift s with None => Err TypeError | Some dr => r <- arrows vneg num_run xo dr (s_pidx s) ;; Ok (Some r) end else Ok None) ;;
        Ok (mklive x c d)
    end.
End LivePlot.
Arguments live : clear implicits.
