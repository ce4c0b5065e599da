(** * Specification of the resampling rules *)
From Coq Require Import List Arith Bool.
From Verif Require Import Scalar Np State Pdyn Resampling.
Import ListNotations.

Section ResampSpec.
  Context {K V : Type} {O : KOps K}.
  Notation F := (fl K).
  Notation st := (st K V).
  Notation cfg := (cfg K V).

  (** [e i] is the best energy of one run seen by call [i]. Call [i] sees a strict improvement:
      it is below +inf and below everything seen before (NaN aside). *)
  Definition improves (e : nat -> F) (i : nat) : Prop :=
    fltb (e i) PInf = true /\ forall j, j < i -> is_nan (e j) = true \/ fltb (e i) (e j) = true.

  (** At call [k] exactly [n] calls have passed since the last improvement; without any
      improvement the calls since the start are counted. *)
  Definition stale (e : nat -> F) (k n : nat) : Prop :=
    n <= S k /\ (n = S k \/ improves e (k - n)) /\ forall i, i <= k -> k < i + n -> ~ improves e i.

  (** The selections made when the rule is called on the states [ss] one after the other. *)
  Fixpoint loss_calls (thresh : nat) (ss : list st) (o : option (lur K)) : res (list (list nat)) :=
    match ss with
    | [] => Ok []
    | s :: ss' =>
        p <- lur_call thresh s o ;;
        outs <- loss_calls thresh ss' (Some (fst p)) ;;
        Ok (snd p :: outs)
    end.

  (** best energy of run [m] at call [i] *)
  Definition seen (ss : list st) (m i : nat) : F :=
    match nth_error ss i with Some s => nth m (s_be s) NaN | None => NaN end.

  (** ** consensus_stagnation *)

  Fixpoint stag_calls (c : cfg) (norm1 : V -> F) (vzero : V -> V) (patience : nat) (thresh : F) (ss : list st)
      (o : cstag K V) : res (list (list nat)) :=
    match ss with
    | [] => Ok []
    | s :: ss' =>
        p <- cstag_call c norm1 vzero patience thresh s o ;;
        outs <- stag_calls c norm1 vzero patience thresh ss' (fst p) ;;
        Ok (snd p :: outs)
    end.

  (** What a dynamic with one consensus point per active run looks like after a step. *)
  Definition one_point_per_run (M : nat) (s : st) : Prop :=
    s_M s = M /\ NoDup (s_active s) /\ (forall m, In m (s_active s) -> m < M) /\
    length (s_x s) = M /\ Forall (fun row => row <> []) (s_x s) /\
    exists cpt, s_cons s = Some cpt /\ length cpt = length (s_active s) /\ Forall (fun row => length row = 1) cpt.

  (** [v] is the consensus point of run [m]. *)
  Definition run_point (s : st) (m : nat) (v : V) : Prop :=
    exists k cpt, s_cons s = Some cpt /\ nth_error (s_active s) k = Some m /\ nth_error cpt k = Some [v].

  (** [u] is the size of the update of the consensus of run [m] from one call to the next: zero
      for a run that is not active; the last known consensus of a run that was not active at the
      previous call is 0. *)
  Definition update_size (c : cfg) (norm1 : V -> F) (vzero : V -> V) (s0 s1 : st) (m : nat) (u : F) : Prop :=
    (~ In m (s_active s1) /\ u = Fin k0) \/
    exists v w, run_point s1 m v /\ u = norm1 (c_vsub c v w) /\
      (run_point s0 m w \/
       (~ In m (s_active s0) /\ exists row x, nth_error (s_x s0) m = Some (x :: row) /\ w = vzero x)).

  (** every update seen by the calls [i] with [k - window < i <= k] is below the threshold;
      [None]: all of them *)
  Definition all_small (c : cfg) (norm1 : V -> F) (vzero : V -> V) (thresh : F) (ss : list st) (m k : nat)
      (window : option nat) : Prop :=
    forall i s0 s1 u, 1 <= i <= k -> (match window with Some p => k < i + p | None => True end) ->
      nth_error ss (i - 1) = Some s0 -> nth_error ss i = Some s1 ->
      update_size c norm1 vzero s0 s1 m u -> fltb u thresh = true.

  (** ** the best consensus *)

  (** The record kept by successive calls on (selected runs, state). *)
  Fixpoint track_calls (c : cfg) (l : list (list nat * st)) (b : option (arr V * arr F)) : res (option (arr V * arr F)) :=
    match l with
    | [] => Ok b
    | (idx, s) :: l' => p <- track_best_consensus c idx s b ;; track_calls c l' (fst p)
    end.

  (** One consensus point for each of the [M] runs; the selected runs are different runs. *)
  Definition all_runs_active (M : nat) (p : list nat * st) : Prop :=
    s_M (snd p) = M /\ NoDup (fst p) /\ (forall m, In m (fst p) -> m < M) /\
    exists cpt, s_cons (snd p) = Some cpt /\ length cpt = M /\ Forall (fun row => length row = 1) cpt.

  (** [v] was the consensus point of run [m] at a call that selected the run. *)
  Definition resampled_at (l : list (list nat * st)) (m : nat) (v : V) : Prop :=
    exists idx s cpt, In (idx, s) l /\ In m idx /\ s_cons s = Some cpt /\ nth_error cpt m = Some [v].
End ResampSpec.
