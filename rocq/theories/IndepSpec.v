(** * Specification: a one-run dynamic that mirrors one run of an M-run dynamic *)
From Coq Require Import String List Arith Bool.
From Verif Require Import Scalar Np State Pdyn Exec TermSpec.
Import ListNotations.
Open Scope nat_scope.
Open Scope list_scope.

Section IndepSpec.
  Context {K V : Type} {O : KOps K}.
  Notation F := (fl K).
  Notation st := (st K V).
  Notation cfg := (cfg K V).
  Notation orc := (orc V).

  (** The one-run state [t] holds exactly the data of run [m] of [s]. *)
  Record mirrors (s : st) (m : nat) (t : st) : Prop := {
    mi_M : s_M t = 1;
    mi_N : s_N t = s_N s;
    mi_m : m < s_M s;
    mi_x : nth_error (s_x t) 0 = nth_error (s_x s) m;
    mi_energy : nth_error (s_energy t) 0 = nth_error (s_energy s) m;
    mi_alpha : nth_error (s_alpha t) 0 = nth_error (s_alpha s) m;
    mi_be : nth_error (s_be t) 0 = nth_error (s_be s) m;
    mi_bp : nth_error (s_bp t) 0 = nth_error (s_bp s) m;
    mi_bce : nth_error (s_bce t) 0 = nth_error (s_bce s) m;
    mi_bcp : nth_error (s_bcp t) 0 = nth_error (s_bcp s) m;
    mi_nfe : nth_error (s_nfe t) 0 = nth_error (s_nfe s) m;
    mi_fmin : nth_error (s_fmin t) 0 = nth_error (s_fmin s) m;
    mi_udiff : nth_error (s_udiff t) 0 = nth_error (s_udiff s) m;
    mi_ind : nth_error (s_ind t) 0 = nth_error (s_ind s) m;
    mi_par : s_sigma t = s_sigma s /\ s_lamda t = s_lamda s /\ s_dt t = s_dt s;
    mi_time : s_t t = s_t s /\ s_it t = s_it s }.

  (** A row of the consensus (or drift) array. *)
  Definition row_of (a : option (arr V)) (k : nat) : option (list V) :=
    match a with Some rows => nth_error rows k | None => None end.

  (** A scheduler that treats the runs separately. *)
  Definition runwise_sched (sched : st -> res st) : Prop :=
    forall s m t s', mirrors s m t -> sched s = Ok s' -> exists t', sched t = Ok t' /\ mirrors s' m t'.

  (** Run [m] of [s] and the only run of [t] have the same energies, best pair and
      evaluation count, and the same positions up to post-processing. *)
  Definition same_result (c : cfg) (s : st) (m : nat) (t : st) : Prop :=
    option_map (map (c_pp c)) (nth_error (s_x t) 0) = option_map (map (c_pp c)) (nth_error (s_x s) m) /\
    nth_error (s_energy t) 0 = nth_error (s_energy s) m /\
    nth_error (s_be t) 0 = nth_error (s_be s) m /\
    nth_error (s_bp t) 0 = nth_error (s_bp s) m /\
    nth_error (s_nfe t) 0 = nth_error (s_nfe s) m.
End IndepSpec.
