(** * Specification of the moves of the variants *)
From Coq Require Import List Arith Bool.
From Verif Require Import Scalar Np State Pdyn PdynStep.
Import ListNotations.

Section VarExactSpec.
  Context {K V : Type} {O : KOps K}.
  Notation F := (fl K).
  Notation st := (st K V).
  Notation cfg := (cfg K V).
  Notation orc := (orc V).

  (** [cp] is the consensus point of run [m]: that of the particles of its batch with their objective
      values and the alpha of the run *)
  Definition own_consensus (c : cfg) (o : orc) (s : st) (m : nat) (cp : V) : Prop :=
    exists xr a xb, nth_error (s_x s) m = Some xr /\ nth_error (s_alpha s) m = Some [a] /\
      takeM xr (run_sel c o s m) = Ok xb /\ c_ccrow c (map (c_f c) xb) xb a = [cp].

  (** sigma times the noise of a particle at [v] with consensus [cp] and draw [z] *)
  Definition kick (c : cfg) (s : st) (v cp z : V) : V := c_vscale c (s_sigma s) (c_noise c (s_dt s) (c_vsub c v cp) z).
  (** lamda dt (v - cp) *)
  Definition pull (c : cfg) (s : st) (v cp : V) : V := c_vscale c (fmul (s_lamda s) (s_dt s)) (c_vsub c v cp).
End VarExactSpec.
