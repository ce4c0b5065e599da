(** * Sessions of MirrorCBO whose positions and dual points are also changed from outside (specification) *)
From Coq Require Import String List Arith Bool.
From Verif Require Import Scalar Np State Pdyn Exec Variant MirrorDual.
Import ListNotations.
Open Scope nat_scope.
Open Scope list_scope.

Section MirrorDualSpec.
  Context {K V : Type} {O : KOps K}.
  Notation st := (st K V).
  Notation cfg := (cfg K V).
  Notation orc := (orc V).

  (** [msess gc gr c s0 l s y hy]: from the construction [s0], steps (while a run is active), termination checks, parameter
      changes, resampling of x or y, and any other overwriting of x and y by arrays of the same shape lead to the
      state [s], the dual points [y] and history['y'] = [hy]; [l] lists the positions and dual points right after each step. *)
  Inductive msess (gc gr : V -> V) (c : cfg) (s0 : st) : list (arr V * arr V) -> st -> arr V -> list (arr V) -> Prop :=
  | ms_init : msess gc gr c s0 [] s0 (mirror_attr gr s0) track_y_init
  | ms_step : forall l s y hy o s' y' hy', msess gc gr c s0 l s y hy -> perms_valid o s -> s_active s <> [] ->
      mirror_tstep gc c o ((s, y), hy) = Ok ((s', y'), hy') -> msess gc gr c s0 (l ++ [(s_x s', y')]) s' y' hy'
  | ms_term : forall l s y hy b s', msess gc gr c s0 l s y hy -> terminate c s = Ok (b, s') -> msess gc gr c s0 l s' y hy
  | ms_params : forall l s y hy s', msess gc gr c s0 l s y hy -> params_changed s s' -> msess gc gr c s0 l s' y hy
  | ms_resample : forall l s y hy var amp z idx s' y', msess gc gr c s0 l s y hy ->
      mirror_resample c var amp z idx (s, y) = Ok (s', y') -> msess gc gr c s0 l s' y' hy
  | ms_write : forall l s y hy x1 y1, msess gc gr c s0 l s y hy -> is_array (s_M s) (s_N s) x1 -> is_array (s_M s) (s_N s) y1 ->
      msess gc gr c s0 l (set_x x1 s) y1 hy.
End MirrorDualSpec.
