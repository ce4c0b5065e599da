(** * MirrorCBO: the tracker of the dual points, and resampling of x or of y *)
From Coq Require Import String List Arith Bool.
From Verif Require Import Scalar Np State Pdyn Variant.
Import ListNotations.
Open Scope nat_scope.
Open Scope list_scope.

Section MirrorDual.
  Context {K V : Type} {O : KOps K}.
  Notation F := (fl K).
  Notation st := (st K V).
  Notation cfg := (cfg K V).
  Notation orc := (orc V).

  (** track_y.init_history, mirrorcbo.py:276-279: unlike track_x (pdyn.py), which stores the initial
      positions, the list starts empty *)
  Definition track_y_init : list (arr V) := [].

  (** step, pdyn.py:294-311, of a MirrorCBO that was asked to track 'y' (mirrorcbo.py:276-284, 307-309):
      ParticleDynamic.track (pdyn.py:497-511) calls track_y.update, which appends a copy of y, in every
      save_int-th step.  history['y'] is kept as a third component beside the history of the other trackers
      (s_hist), since no other tracker reads it; the position of 'y' among the names has no influence, because
      the trackers of known names do not raise. *)
  Definition mirror_tstep (gc : V -> V) (c : cfg) (o : orc) (p : (st * arr V) * list (arr V))
      : res ((st * arr V) * list (arr V)) :=
    q <- vstep (mirror_inner gc) c o (fst p) ;;
    let s := fst (fst p) in
    Ok (q, if s_it s mod s_save s =? 0 then snd p ++ [snd q] else snd p).

  (** The attribute that resampling changes: var_name, resampling.py:4 and 30 *)
  Inductive vname : Type := VarX | VarY.

  (** [a[idx, ...] += amp * z], resampling.py:5-6; [amp] is [sigma_indep * sqrt(dt)], [z] the sampled array *)
  Definition add_noise (c : cfg) (amp : F) (z : nat -> nat -> V) (idx : list nat) (N : nat) (a : arr V) : res (arr V) :=
    rows <- takeM a idx ;;
    let zs := map (fun k => map (fun n => c_vscale c amp (z k n)) (seq 0 N)) (seq 0 (length idx)) in
    new <- bc2 (c_vadd c) rows zs ;;
    scatter (IRuns idx) a new.

  (** apply_resampling_default, resampling.py:4-6, on a MirrorCBO *)
  Definition mirror_resample (c : cfg) (var : vname) (amp : F) (z : nat -> nat -> V) (idx : list nat) (p : st * arr V)
      : res (st * arr V) :=
    match var with
    | VarX => x' <- add_noise c amp z idx (s_N (fst p)) (s_x (fst p)) ;; Ok (set_x x' (fst p), snd p)
    | VarY => y' <- add_noise c amp z idx (s_N (fst p)) (snd p) ;; Ok (fst p, y')
    end.
End MirrorDual.
