(** * The state of a consensus based dynamic

    One record field per attribute of a [CBXDynamic] object
    (cbx/dynamics/pdyn.py:126-168, 629-658, 691-739).  The setters below are
    plain attribute assignments. *)

From Coq Require Import String List Arith Bool.
From Verif Require Import Scalar Np.
Import ListNotations.

Section State.
  Context {K V : Type}.

  (** Values stored in the history (cbx/utils/history.py). *)
  Inductive hval : Type :=
  | HX (x : arr V)              (* positions: history.py:68-91 *)
  | HUpd (u : list (fl K))      (* update norms: history.py:94-115 *)
  | HEnergy (e : arr (fl K))    (* energies: history.py:118-129 *)
  | HCons (c : option (arr V))  (* consensus: history.py:132-142 *)
  | HMean (m : list (fl K))     (* mean absolute drift: history.py:144-154 *)
  | HDrift (d : option (arr V)) (* drift: history.py:156-169 *)
  | HIdx (i : idx)              (* particle_idx: history.py:156-169 *)
  | HNat (n : nat)              (* integer attributes (default_track) *)
  | HNats (n : list nat)        (* integer arrays (default_track) *)
  | HArr (a : arr (fl K))       (* float arrays (default_track) *)
  | HVec (v : list V)           (* best particles (default_track) *)
  | HNum (a : fl K).            (* float attributes (default_track) *)

  (** Trackers: pdyn.py:458-462, 660-664 and default_track, history.py:44-65. *)
  Inductive trk : Type :=
  | TX | TUpd | TEnergy | TCons | TDriftMean | TDrift
  | TDefault (name : string) (tracking : bool).

  Record st : Type := mkst {
    s_M : nat;  (* self.M: number of runs *)
    s_N : nat;  (* self.N: number of particles *)
    s_x : arr V;  (* self.x *)
    s_xold : option (arr V);  (* self.x_old (None: attribute not set yet) *)
    s_energy : arr (fl K);  (* self.energy *)
    s_cons : option (arr V);  (* self.consensus *)
    s_drift : option (arr V);  (* self.drift (None: not set yet) *)
    s_alpha : arr (fl K);  (* self.alpha, shape (M,1) *)
    s_sigma : fl K;  (* self.sigma *)
    s_lamda : fl K;  (* self.lamda *)
    s_dt : fl K;  (* self.dt *)
    s_t : fl K;  (* self.t *)
    s_it : nat;  (* self.it *)
    s_be : list (fl K);  (* self.best_energy *)
    s_bce : list (fl K);  (* self.best_cur_energy *)
    s_bp : list V;  (* self.best_particle *)
    s_bcp : list V;  (* self.best_cur_particle ([]: not set yet) *)
    s_fmin : list (fl K);  (* self.f_min *)
    s_udiff : list (fl K);  (* self.update_diff *)
    s_nfe : list nat;  (* self.num_f_eval *)
    s_fcalls : nat;  (* self.f.num_eval: points the wrapped objective was evaluated on *)
    s_active : list nat;  (* self.active_runs_idx *)
    s_reason : list (option (list nat));  (* self.term_reason *)
    s_cidx : idx;  (* self.consensus_idx *)
    s_pidx : idx;  (* self.particle_idx *)
    s_ind : list (list nat);  (* self.indices: batch indices not used yet *)
    s_cep : option (arr V);  (* self.consensus_eval_points *)
    s_tracks : list trk;  (* self.tracks *)
    s_hist : list (string * list hval);  (* self.history *)
    s_trackit : nat;  (* self.track_it *)
    s_save : nat  (* self.save_int *)
  }.

  Definition set_M (v : nat) (s : st) : st :=
    mkst v (s_N s) (s_x s) (s_xold s) (s_energy s) (s_cons s) (s_drift s) (s_alpha s) (s_sigma s) (s_lamda s) (s_dt s) (s_t s) (s_it s) (s_be s) (s_bce s) (s_bp s) (s_bcp s) (s_fmin s) (s_udiff s) (s_nfe s) (s_fcalls s) (s_active s) (s_reason s) (s_cidx s) (s_pidx s) (s_ind s) (s_cep s) (s_tracks s) (s_hist s) (s_trackit s) (s_save s).
  Definition set_N (v : nat) (s : st) : st :=
    mkst (s_M s) v (s_x s) (s_xold s) (s_energy s) (s_cons s) (s_drift s) (s_alpha s) (s_sigma s) (s_lamda s) (s_dt s) (s_t s) (s_it s) (s_be s) (s_bce s) (s_bp s) (s_bcp s) (s_fmin s) (s_udiff s) (s_nfe s) (s_fcalls s) (s_active s) (s_reason s) (s_cidx s) (s_pidx s) (s_ind s) (s_cep s) (s_tracks s) (s_hist s) (s_trackit s) (s_save s).
  Definition set_x (v : arr V) (s : st) : st :=
    mkst (s_M s) (s_N s) v (s_xold s) (s_energy s) (s_cons s) (s_drift s) (s_alpha s) (s_sigma s) (s_lamda s) (s_dt s) (s_t s) (s_it s) (s_be s) (s_bce s) (s_bp s) (s_bcp s) (s_fmin s) (s_udiff s) (s_nfe s) (s_fcalls s) (s_active s) (s_reason s) (s_cidx s) (s_pidx s) (s_ind s) (s_cep s) (s_tracks s) (s_hist s) (s_trackit s) (s_save s).
  Definition set_xold (v : option (arr V)) (s : st) : st :=
    mkst (s_M s) (s_N s) (s_x s) v (s_energy s) (s_cons s) (s_drift s) (s_alpha s) (s_sigma s) (s_lamda s) (s_dt s) (s_t s) (s_it s) (s_be s) (s_bce s) (s_bp s) (s_bcp s) (s_fmin s) (s_udiff s) (s_nfe s) (s_fcalls s) (s_active s) (s_reason s) (s_cidx s) (s_pidx s) (s_ind s) (s_cep s) (s_tracks s) (s_hist s) (s_trackit s) (s_save s).
  Definition set_energy (v : arr (fl K)) (s : st) : st :=
    mkst (s_M s) (s_N s) (s_x s) (s_xold s) v (s_cons s) (s_drift s) (s_alpha s) (s_sigma s) (s_lamda s) (s_dt s) (s_t s) (s_it s) (s_be s) (s_bce s) (s_bp s) (s_bcp s) (s_fmin s) (s_udiff s) (s_nfe s) (s_fcalls s) (s_active s) (s_reason s) (s_cidx s) (s_pidx s) (s_ind s) (s_cep s) (s_tracks s) (s_hist s) (s_trackit s) (s_save s).
  Definition set_cons (v : option (arr V)) (s : st) : st :=
    mkst (s_M s) (s_N s) (s_x s) (s_xold s) (s_energy s) v (s_drift s) (s_alpha s) (s_sigma s) (s_lamda s) (s_dt s) (s_t s) (s_it s) (s_be s) (s_bce s) (s_bp s) (s_bcp s) (s_fmin s) (s_udiff s) (s_nfe s) (s_fcalls s) (s_active s) (s_reason s) (s_cidx s) (s_pidx s) (s_ind s) (s_cep s) (s_tracks s) (s_hist s) (s_trackit s) (s_save s).
  Definition set_drift (v : option (arr V)) (s : st) : st :=
    mkst (s_M s) (s_N s) (s_x s) (s_xold s) (s_energy s) (s_cons s) v (s_alpha s) (s_sigma s) (s_lamda s) (s_dt s) (s_t s) (s_it s) (s_be s) (s_bce s) (s_bp s) (s_bcp s) (s_fmin s) (s_udiff s) (s_nfe s) (s_fcalls s) (s_active s) (s_reason s) (s_cidx s) (s_pidx s) (s_ind s) (s_cep s) (s_tracks s) (s_hist s) (s_trackit s) (s_save s).
  Definition set_alpha (v : arr (fl K)) (s : st) : st :=
    mkst (s_M s) (s_N s) (s_x s) (s_xold s) (s_energy s) (s_cons s) (s_drift s) v (s_sigma s) (s_lamda s) (s_dt s) (s_t s) (s_it s) (s_be s) (s_bce s) (s_bp s) (s_bcp s) (s_fmin s) (s_udiff s) (s_nfe s) (s_fcalls s) (s_active s) (s_reason s) (s_cidx s) (s_pidx s) (s_ind s) (s_cep s) (s_tracks s) (s_hist s) (s_trackit s) (s_save s).
  Definition set_sigma (v : fl K) (s : st) : st :=
    mkst (s_M s) (s_N s) (s_x s) (s_xold s) (s_energy s) (s_cons s) (s_drift s) (s_alpha s) v (s_lamda s) (s_dt s) (s_t s) (s_it s) (s_be s) (s_bce s) (s_bp s) (s_bcp s) (s_fmin s) (s_udiff s) (s_nfe s) (s_fcalls s) (s_active s) (s_reason s) (s_cidx s) (s_pidx s) (s_ind s) (s_cep s) (s_tracks s) (s_hist s) (s_trackit s) (s_save s).
  Definition set_lamda (v : fl K) (s : st) : st :=
    mkst (s_M s) (s_N s) (s_x s) (s_xold s) (s_energy s) (s_cons s) (s_drift s) (s_alpha s) (s_sigma s) v (s_dt s) (s_t s) (s_it s) (s_be s) (s_bce s) (s_bp s) (s_bcp s) (s_fmin s) (s_udiff s) (s_nfe s) (s_fcalls s) (s_active s) (s_reason s) (s_cidx s) (s_pidx s) (s_ind s) (s_cep s) (s_tracks s) (s_hist s) (s_trackit s) (s_save s).
  Definition set_dt (v : fl K) (s : st) : st :=
    mkst (s_M s) (s_N s) (s_x s) (s_xold s) (s_energy s) (s_cons s) (s_drift s) (s_alpha s) (s_sigma s) (s_lamda s) v (s_t s) (s_it s) (s_be s) (s_bce s) (s_bp s) (s_bcp s) (s_fmin s) (s_udiff s) (s_nfe s) (s_fcalls s) (s_active s) (s_reason s) (s_cidx s) (s_pidx s) (s_ind s) (s_cep s) (s_tracks s) (s_hist s) (s_trackit s) (s_save s).
  Definition set_t (v : fl K) (s : st) : st :=
    mkst (s_M s) (s_N s) (s_x s) (s_xold s) (s_energy s) (s_cons s) (s_drift s) (s_alpha s) (s_sigma s) (s_lamda s) (s_dt s) v (s_it s) (s_be s) (s_bce s) (s_bp s) (s_bcp s) (s_fmin s) (s_udiff s) (s_nfe s) (s_fcalls s) (s_active s) (s_reason s) (s_cidx s) (s_pidx s) (s_ind s) (s_cep s) (s_tracks s) (s_hist s) (s_trackit s) (s_save s).
  Definition set_it (v : nat) (s : st) : st :=
    mkst (s_M s) (s_N s) (s_x s) (s_xold s) (s_energy s) (s_cons s) (s_drift s) (s_alpha s) (s_sigma s) (s_lamda s) (s_dt s) (s_t s) v (s_be s) (s_bce s) (s_bp s) (s_bcp s) (s_fmin s) (s_udiff s) (s_nfe s) (s_fcalls s) (s_active s) (s_reason s) (s_cidx s) (s_pidx s) (s_ind s) (s_cep s) (s_tracks s) (s_hist s) (s_trackit s) (s_save s).
  Definition set_be (v : list (fl K)) (s : st) : st :=
    mkst (s_M s) (s_N s) (s_x s) (s_xold s) (s_energy s) (s_cons s) (s_drift s) (s_alpha s) (s_sigma s) (s_lamda s) (s_dt s) (s_t s) (s_it s) v (s_bce s) (s_bp s) (s_bcp s) (s_fmin s) (s_udiff s) (s_nfe s) (s_fcalls s) (s_active s) (s_reason s) (s_cidx s) (s_pidx s) (s_ind s) (s_cep s) (s_tracks s) (s_hist s) (s_trackit s) (s_save s).
  Definition set_bce (v : list (fl K)) (s : st) : st :=
    mkst (s_M s) (s_N s) (s_x s) (s_xold s) (s_energy s) (s_cons s) (s_drift s) (s_alpha s) (s_sigma s) (s_lamda s) (s_dt s) (s_t s) (s_it s) (s_be s) v (s_bp s) (s_bcp s) (s_fmin s) (s_udiff s) (s_nfe s) (s_fcalls s) (s_active s) (s_reason s) (s_cidx s) (s_pidx s) (s_ind s) (s_cep s) (s_tracks s) (s_hist s) (s_trackit s) (s_save s).
  Definition set_bp (v : list V) (s : st) : st :=
    mkst (s_M s) (s_N s) (s_x s) (s_xold s) (s_energy s) (s_cons s) (s_drift s) (s_alpha s) (s_sigma s) (s_lamda s) (s_dt s) (s_t s) (s_it s) (s_be s) (s_bce s) v (s_bcp s) (s_fmin s) (s_udiff s) (s_nfe s) (s_fcalls s) (s_active s) (s_reason s) (s_cidx s) (s_pidx s) (s_ind s) (s_cep s) (s_tracks s) (s_hist s) (s_trackit s) (s_save s).
  Definition set_bcp (v : list V) (s : st) : st :=
    mkst (s_M s) (s_N s) (s_x s) (s_xold s) (s_energy s) (s_cons s) (s_drift s) (s_alpha s) (s_sigma s) (s_lamda s) (s_dt s) (s_t s) (s_it s) (s_be s) (s_bce s) (s_bp s) v (s_fmin s) (s_udiff s) (s_nfe s) (s_fcalls s) (s_active s) (s_reason s) (s_cidx s) (s_pidx s) (s_ind s) (s_cep s) (s_tracks s) (s_hist s) (s_trackit s) (s_save s).
  Definition set_fmin (v : list (fl K)) (s : st) : st :=
    mkst (s_M s) (s_N s) (s_x s) (s_xold s) (s_energy s) (s_cons s) (s_drift s) (s_alpha s) (s_sigma s) (s_lamda s) (s_dt s) (s_t s) (s_it s) (s_be s) (s_bce s) (s_bp s) (s_bcp s) v (s_udiff s) (s_nfe s) (s_fcalls s) (s_active s) (s_reason s) (s_cidx s) (s_pidx s) (s_ind s) (s_cep s) (s_tracks s) (s_hist s) (s_trackit s) (s_save s).
  Definition set_udiff (v : list (fl K)) (s : st) : st :=
    mkst (s_M s) (s_N s) (s_x s) (s_xold s) (s_energy s) (s_cons s) (s_drift s) (s_alpha s) (s_sigma s) (s_lamda s) (s_dt s) (s_t s) (s_it s) (s_be s) (s_bce s) (s_bp s) (s_bcp s) (s_fmin s) v (s_nfe s) (s_fcalls s) (s_active s) (s_reason s) (s_cidx s) (s_pidx s) (s_ind s) (s_cep s) (s_tracks s) (s_hist s) (s_trackit s) (s_save s).
  Definition set_nfe (v : list nat) (s : st) : st :=
    mkst (s_M s) (s_N s) (s_x s) (s_xold s) (s_energy s) (s_cons s) (s_drift s) (s_alpha s) (s_sigma s) (s_lamda s) (s_dt s) (s_t s) (s_it s) (s_be s) (s_bce s) (s_bp s) (s_bcp s) (s_fmin s) (s_udiff s) v (s_fcalls s) (s_active s) (s_reason s) (s_cidx s) (s_pidx s) (s_ind s) (s_cep s) (s_tracks s) (s_hist s) (s_trackit s) (s_save s).
  Definition set_fcalls (v : nat) (s : st) : st :=
    mkst (s_M s) (s_N s) (s_x s) (s_xold s) (s_energy s) (s_cons s) (s_drift s) (s_alpha s) (s_sigma s) (s_lamda s) (s_dt s) (s_t s) (s_it s) (s_be s) (s_bce s) (s_bp s) (s_bcp s) (s_fmin s) (s_udiff s) (s_nfe s) v (s_active s) (s_reason s) (s_cidx s) (s_pidx s) (s_ind s) (s_cep s) (s_tracks s) (s_hist s) (s_trackit s) (s_save s).
  Definition set_active (v : list nat) (s : st) : st :=
    mkst (s_M s) (s_N s) (s_x s) (s_xold s) (s_energy s) (s_cons s) (s_drift s) (s_alpha s) (s_sigma s) (s_lamda s) (s_dt s) (s_t s) (s_it s) (s_be s) (s_bce s) (s_bp s) (s_bcp s) (s_fmin s) (s_udiff s) (s_nfe s) (s_fcalls s) v (s_reason s) (s_cidx s) (s_pidx s) (s_ind s) (s_cep s) (s_tracks s) (s_hist s) (s_trackit s) (s_save s).
  Definition set_reason (v : list (option (list nat))) (s : st) : st :=
    mkst (s_M s) (s_N s) (s_x s) (s_xold s) (s_energy s) (s_cons s) (s_drift s) (s_alpha s) (s_sigma s) (s_lamda s) (s_dt s) (s_t s) (s_it s) (s_be s) (s_bce s) (s_bp s) (s_bcp s) (s_fmin s) (s_udiff s) (s_nfe s) (s_fcalls s) (s_active s) v (s_cidx s) (s_pidx s) (s_ind s) (s_cep s) (s_tracks s) (s_hist s) (s_trackit s) (s_save s).
  Definition set_cidx (v : idx) (s : st) : st :=
    mkst (s_M s) (s_N s) (s_x s) (s_xold s) (s_energy s) (s_cons s) (s_drift s) (s_alpha s) (s_sigma s) (s_lamda s) (s_dt s) (s_t s) (s_it s) (s_be s) (s_bce s) (s_bp s) (s_bcp s) (s_fmin s) (s_udiff s) (s_nfe s) (s_fcalls s) (s_active s) (s_reason s) v (s_pidx s) (s_ind s) (s_cep s) (s_tracks s) (s_hist s) (s_trackit s) (s_save s).
  Definition set_pidx (v : idx) (s : st) : st :=
    mkst (s_M s) (s_N s) (s_x s) (s_xold s) (s_energy s) (s_cons s) (s_drift s) (s_alpha s) (s_sigma s) (s_lamda s) (s_dt s) (s_t s) (s_it s) (s_be s) (s_bce s) (s_bp s) (s_bcp s) (s_fmin s) (s_udiff s) (s_nfe s) (s_fcalls s) (s_active s) (s_reason s) (s_cidx s) v (s_ind s) (s_cep s) (s_tracks s) (s_hist s) (s_trackit s) (s_save s).
  Definition set_ind (v : list (list nat)) (s : st) : st :=
    mkst (s_M s) (s_N s) (s_x s) (s_xold s) (s_energy s) (s_cons s) (s_drift s) (s_alpha s) (s_sigma s) (s_lamda s) (s_dt s) (s_t s) (s_it s) (s_be s) (s_bce s) (s_bp s) (s_bcp s) (s_fmin s) (s_udiff s) (s_nfe s) (s_fcalls s) (s_active s) (s_reason s) (s_cidx s) (s_pidx s) v (s_cep s) (s_tracks s) (s_hist s) (s_trackit s) (s_save s).
  Definition set_cep (v : option (arr V)) (s : st) : st :=
    mkst (s_M s) (s_N s) (s_x s) (s_xold s) (s_energy s) (s_cons s) (s_drift s) (s_alpha s) (s_sigma s) (s_lamda s) (s_dt s) (s_t s) (s_it s) (s_be s) (s_bce s) (s_bp s) (s_bcp s) (s_fmin s) (s_udiff s) (s_nfe s) (s_fcalls s) (s_active s) (s_reason s) (s_cidx s) (s_pidx s) (s_ind s) v (s_tracks s) (s_hist s) (s_trackit s) (s_save s).
  Definition set_tracks (v : list trk) (s : st) : st :=
    mkst (s_M s) (s_N s) (s_x s) (s_xold s) (s_energy s) (s_cons s) (s_drift s) (s_alpha s) (s_sigma s) (s_lamda s) (s_dt s) (s_t s) (s_it s) (s_be s) (s_bce s) (s_bp s) (s_bcp s) (s_fmin s) (s_udiff s) (s_nfe s) (s_fcalls s) (s_active s) (s_reason s) (s_cidx s) (s_pidx s) (s_ind s) (s_cep s) v (s_hist s) (s_trackit s) (s_save s).
  Definition set_hist (v : list (string * list hval)) (s : st) : st :=
    mkst (s_M s) (s_N s) (s_x s) (s_xold s) (s_energy s) (s_cons s) (s_drift s) (s_alpha s) (s_sigma s) (s_lamda s) (s_dt s) (s_t s) (s_it s) (s_be s) (s_bce s) (s_bp s) (s_bcp s) (s_fmin s) (s_udiff s) (s_nfe s) (s_fcalls s) (s_active s) (s_reason s) (s_cidx s) (s_pidx s) (s_ind s) (s_cep s) (s_tracks s) v (s_trackit s) (s_save s).
  Definition set_trackit (v : nat) (s : st) : st :=
    mkst (s_M s) (s_N s) (s_x s) (s_xold s) (s_energy s) (s_cons s) (s_drift s) (s_alpha s) (s_sigma s) (s_lamda s) (s_dt s) (s_t s) (s_it s) (s_be s) (s_bce s) (s_bp s) (s_bcp s) (s_fmin s) (s_udiff s) (s_nfe s) (s_fcalls s) (s_active s) (s_reason s) (s_cidx s) (s_pidx s) (s_ind s) (s_cep s) (s_tracks s) (s_hist s) v (s_save s).
  Definition set_save (v : nat) (s : st) : st :=
    mkst (s_M s) (s_N s) (s_x s) (s_xold s) (s_energy s) (s_cons s) (s_drift s) (s_alpha s) (s_sigma s) (s_lamda s) (s_dt s) (s_t s) (s_it s) (s_be s) (s_bce s) (s_bp s) (s_bcp s) (s_fmin s) (s_udiff s) (s_nfe s) (s_fcalls s) (s_active s) (s_reason s) (s_cidx s) (s_pidx s) (s_ind s) (s_cep s) (s_tracks s) (s_hist s) (s_trackit s) v.
End State.

Arguments hval : clear implicits.
Arguments trk : clear implicits.
Arguments st : clear implicits.
