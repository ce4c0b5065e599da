(** * Specification of termination: criteria run by run, and the loop of optimize *)

From Coq Require Import String List Arith Bool.
From Verif Require Import Scalar Np State Pdyn Exec.
Import ListNotations.
Open Scope nat_scope.
Open Scope list_scope.

Section TermSpec.
  Context {K V : Type} {O : KOps K}.
  Notation F := (fl K).
  Notation st := (st K V).
  Notation cfg := (cfg K V).
  Notation orc := (orc V).

  (** Does criterion [k] hold for run [m]? *)
  Definition holds (c : cfg) (s : st) (k : crit K V) (m : nat) : bool :=
    match k with
    | CEnergyTol tol => match nth_error (s_fmin s) m with Some e => fltb e tol | None => false end
    | CDiffTol tol => match nth_error (s_udiff s) m with Some u => fltb u tol | None => false end
    | CMaxEval B => match nth_error (s_nfe s) m with Some e => B <? e + c_bsize c | None => false end
    | CMaxIt None => false
    | CMaxIt (Some n) => n <=? s_it s
    | CMaxTime T => fleb T (s_t s)
    | CCustom g => match bto (s_M s) (g s) with Ok l => nth m l false | Err _ => false end
    end.

  Definition meets_some (c : cfg) (s : st) (m : nat) : bool := existsb (fun k => holds c s k m) (c_crit c).

  (** indices of the criteria which hold for run [m] *)
  Definition met_criteria (c : cfg) (s : st) (m : nat) : list nat :=
    filter (fun i => match nth_error (c_crit c) i with Some k => holds c s k m | None => false end)
           (seq 0 (length (c_crit c))).

  Definition builtin (k : crit K V) : Prop := match k with CCustom _ => False | _ => True end.

  (** Built-in criterion, and diff_tol has a positive tolerance. *)
  Definition positive_tol (k : crit K V) : Prop :=
    match k with CDiffTol tol => fltb (Fin k0) tol = true | CCustom _ => False | _ => True end.

  (** [loop c sched s n s']: [s'] is the state at the (n+1)-st call of terminate() when
      optimize is started in [s]. *)
  Inductive loop (c : cfg) (sched : st -> res st) (s : st) : nat -> st -> Prop :=
  | loop_start : loop c sched s 0 s
  | loop_iter : forall n s1 s2 o s3 s4, loop c sched s n s1 ->
      terminate c s1 = Ok (false, s2) -> perms_valid o s2 -> step c o s2 = Ok s3 -> sched s3 = Ok s4 ->
      loop c sched s (S n) s4.

  (** A scheduler that only changes the parameters alpha, sigma, lamda and dt. *)
  Definition param_sched (sched : st -> res st) : Prop :=
    forall s s', sched s = Ok s' -> params_changed s s'.
  (** ... and never fails. *)
  Definition total_sched (sched : st -> res st) : Prop := forall s, exists s', sched s = Ok s'.

  (** The time step is finite and not negative. *)
  Definition nonneg_dt (s : st) : Prop := exists d, s_dt s = Fin d /\ kltb d k0 = false.

  Definition in_range (o : nat -> orc) (s : st) : Prop := forall i, perms_valid (o i) s.
End TermSpec.

(** Adding a non-negative number does not decrease. *)
Class KAddMono (K : Type) {O : KOps K} : Prop := {
  kadd_mono : forall a d, kltb d k0 = false -> kltb (kadd a d) a = false }.
