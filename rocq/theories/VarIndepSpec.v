(** * Specification: run m of an array of runs of a variant, and the same run on its own *)
From Coq Require Import String List Arith Bool.
From Verif Require Import Scalar Np State Pdyn Variant.
Import ListNotations.
Open Scope nat_scope.
Open Scope list_scope.

Section VarIndepSpec.
  Context {K V : Type} {O : KOps K}.
  Notation F := (fl K).
  Notation st := (st K V).
  Notation cfg := (cfg K V).
  Notation orc := (orc V).

  (** The one-run object [t] holds the data of run [m] of [s]: positions, energies, alpha, best pairs, minimum,
      update difference, remaining batch indices, parameters and time.  (Not the number of evaluations.) *)
  Record twins (s : st) (m : nat) (t : st) : Prop := {
    tw_M : s_M t = 1;
    tw_N : s_N t = s_N s;
    tw_m : m < s_M s;
    tw_x : nth_error (s_x t) 0 = nth_error (s_x s) m;
    tw_energy : nth_error (s_energy t) 0 = nth_error (s_energy s) m;
    tw_alpha : nth_error (s_alpha t) 0 = nth_error (s_alpha s) m;
    tw_be : nth_error (s_be t) 0 = nth_error (s_be s) m;
    tw_bp : nth_error (s_bp t) 0 = nth_error (s_bp s) m;
    tw_bce : nth_error (s_bce t) 0 = nth_error (s_bce s) m;
    tw_bcp : nth_error (s_bcp t) 0 = nth_error (s_bcp s) m;
    tw_fmin : nth_error (s_fmin t) 0 = nth_error (s_fmin s) m;
    tw_udiff : nth_error (s_udiff t) 0 = nth_error (s_udiff s) m;
    tw_ind : nth_error (s_ind t) 0 = nth_error (s_ind s) m;
    tw_par : s_sigma t = s_sigma s /\ s_lamda t = s_lamda s /\ s_dt t = s_dt s;
    tw_time : s_t t = s_t s /\ s_it t = s_it s }.

  (** The draws of one step for the run alone are those for run [m], the [k]-th active run. *)
  Definition same_draws (k m : nat) (o o' : orc) : Prop :=
    o_perm o' 0 = o_perm o m /\ forall n, o_z o' 0 n = o_z o k n.

  (** All runs are active. *)
  Definition everything_active (s : st) : Prop := length (s_active s) = s_M s.

  (** Several steps in a row. *)
  Fixpoint vsteps {E} (inner : cfg -> orc -> st -> E -> res (st * E)) (c : cfg) (os : list orc) (p : st * E) : res (st * E) :=
    match os with [] => Ok p | o :: os' => p1 <- vstep inner c o p ;; vsteps inner c os' p1 end.
End VarIndepSpec.

(** ** CBOMemory and PSO *)
From Verif Require Import Memory.
Section MemIndepSpec.
  Context {K V : Type} {O : KOps K}.
  Notation mst := (mst K V).
  Notation mpar := (mpar K).
  Notation cfg := (cfg K V).

  (** The one-run object [mt] holds the data of run [m]: positions, memory, velocities, energies, alpha, best pair, parameters. *)
  Record mtwins (ms : mst) (m : nat) (mt : mst) : Prop := {
    mt_M : s_M (m_s mt) = 1;
    mt_N : s_N (m_s mt) = s_N (m_s ms);
    mt_m : m < s_M (m_s ms);
    mt_x : nth_error (s_x (m_s mt)) 0 = nth_error (s_x (m_s ms)) m;
    mt_y : nth_error (m_y mt) 0 = nth_error (m_y ms) m;
    mt_v : nth_error (m_v mt) 0 = nth_error (m_v ms) m;
    mt_energy : nth_error (s_energy (m_s mt)) 0 = nth_error (s_energy (m_s ms)) m;
    mt_alpha : nth_error (s_alpha (m_s mt)) 0 = nth_error (s_alpha (m_s ms)) m;
    mt_be : nth_error (s_be (m_s mt)) 0 = nth_error (s_be (m_s ms)) m;
    mt_bp : nth_error (s_bp (m_s mt)) 0 = nth_error (s_bp (m_s ms)) m;
    mt_par : s_sigma (m_s mt) = s_sigma (m_s ms) /\ s_lamda (m_s mt) = s_lamda (m_s ms) /\ s_dt (m_s mt) = s_dt (m_s ms) }.

  (** One step is given by its memory parameters, its draws and the draws of the memory noise. *)
  Definition minput : Type := (mpar * orc V * (nat -> nat -> V))%type.
  Definition same_mem_draws (m : nat) (a b : minput) : Prop :=
    fst (fst b) = fst (fst a) /\ same_draws m m (snd (fst a)) (snd (fst b)) /\ forall n, snd b 0 n = snd a m n.
  Fixpoint msteps (k : mkind) (c : cfg) (l : list minput) (ms : mst) : res mst :=
    match l with [] => Ok ms | a :: l' => ms1 <- mem_step k c (fst (fst a)) (snd (fst a)) (snd a) ms ;; msteps k c l' ms1 end.
End MemIndepSpec.
