(** * DriftConstrainedCBO: the independent noise of collapsed runs

    cbx/dynamics/driftconstrainedcbo.py:39-64.  The loop [while True] has no bound; it is modelled with fuel:
    [None] means that the loop has not been left after that many passes. *)
From Coq Require Import String List Arith Bool.
From Verif Require Import Scalar Np State Pdyn Memory Variant.
Import ListNotations.
Open Scope nat_scope.
Open Scope list_scope.

Section KickNoise.
  Context {K V : Type} {O : KOps K}.
  Notation F := (fl K).
  Notation st := (st K V).
  Notation cfg := (cfg K V).
  Notation orc := (orc V).

  (** eps_indep, sigma_indep (driftconstrainedcbo.py:36-46), d[0], the squared norm of one particle
      ([np.linalg.norm(..., axis=-1)**2]) and the increment [sigma_indep * dt**0.5 * z] of one particle. *)
  Record kpar : Type := mkkpar { k_eps : F; k_sig : F; k_dim : nat; k_sq : V -> F; k_inc : F -> F -> V -> V }.

  Definition fsum (l : list F) : F := fold_right fadd (Fin k0) l.

  (** [cxd], driftconstrainedcbo.py:55 *)
  Definition cxd (p : kpar) (c : cfg) (x cp : arr V) : res (list F) :=
    d <- bc2 (c_vsub c) x cp ;;
    Ok (map (fun row => fdiv (fdiv (fsum (map (k_sq p) row)) (Fin (kofnat (length row)))) (Fin (kofnat (k_dim p)))) d).

  (** [x[idx[0], ...] += sigma_indep * dt**0.5 * z], driftconstrainedcbo.py:59-64.  [z j n]: draw for the j-th selected run
      and particle n.  (np.where gives distinct indices.) *)
  Definition kick (p : kpar) (c : cfg) (dt : F) (z : nat -> nat -> V) (idx : list nat) (x : arr V) : arr V :=
    mapi (fun m row => match last_index m idx with
                       | Some j => mapi (fun n v => c_vadd c v (k_inc p (k_sig p) dt (z j n))) row
                       | None => row end) x.

  (** the loop, driftconstrainedcbo.py:54-64.  [z i]: the draws of pass i. *)
  Fixpoint kick_loop (fuel : nat) (p : kpar) (c : cfg) (dt : F) (z : nat -> nat -> nat -> V) (i : nat) (x cp : arr V) : option (res (arr V)) :=
    match cxd p c x cp with
    | Err e => Some (Err e)
    | Ok l =>
        match np_where (map (fun v => fltb v (k_eps p)) l) with
        | [] => Some (Ok x)
        | idx => match fuel with
                 | 0 => None
                 | S f => kick_loop f p c dt z (S i) (kick p c dt (z i) idx x) cp
                 end
        end
    end.

  (** indep_noise_step, driftconstrainedcbo.py:52-64 *)
  Definition indep_noise (fuel : nat) (p : kpar) (c : cfg) (z : nat -> nat -> nat -> V) (s : st) : option (res st) :=
    if fltb (Fin k0) (k_sig p) then
      match s_cons s with
      | None => Some (Ok s)
      | Some cp => match kick_loop fuel p c (s_dt s) z 0 (s_x s) cp with
                   | None => None
                   | Some (Ok x') => Some (Ok (set_x x' s))
                   | Some (Err e) => Some (Err e)
                   end
      end
    else Some (Ok s).

  (** DriftConstrainedCBO.inner_step, driftconstrainedcbo.py:48-50.  The additional attribute counts the steps, so that [zs]
      gives every step its own draws.  A loop that is not left is no result: it is mapped to an exception here and no
      theorem uses that value. *)
  Definition dck_inner (fuel : nat) (p : kpar) (zs : nat -> nat -> nat -> nat -> V) (G : option multi) (eps : F)
      (c : cfg) (o : orc) (s : st) (k : nat) : res (st * nat) :=
    match indep_noise fuel p c (zs k) s with
    | None => Err RuntimeErr
    | Some r => s1 <- r ;; q <- dc_inner G eps c o s1 tt ;; Ok (fst q, S k)
    end.
End KickNoise.

Arguments kpar : clear implicits.
