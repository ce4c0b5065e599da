(** * Specification: the same sequence of calls on two objects of CBO *)
From Coq Require Import String List Arith Bool Permutation Reals.
From Verif Require Import Scalar Np State Pdyn Exec RVec ConsSpec Cbo CboSpec MemSymSpec SimSpec.
Import ListNotations.
Open Scope nat_scope.
Open Scope list_scope.

Section SessSpec.
  Context {K V : Type} {O : KOps K}.
  Notation F := (fl K).

  (** what a user can do with a dynamic: make a step with the random inputs [o]; check for termination; assign new values
      to alpha (all runs), sigma, lamda and dt; reset *)
  Inductive call : Type :=
  | CaStep (o : orc V)
  | CaTerminate
  | CaParameters (alpha sigma lamda dt : F)
  | CaReset.

  Definition cbo_do (c : cfg K V) (a : call) (s : st K V) : res (st K V) :=
    match a with
    | CaStep o => step c o s
    | CaTerminate => r <- terminate c s ;; Ok (snd r)
    | CaParameters al sg la dt => Ok (set_alpha (repeat [al] (s_M s)) (set_sigma sg (set_lamda la (set_dt dt s))))
    | CaReset => Ok (reset s)
    end.
  Fixpoint cbo_play (c : cfg K V) (l : list call) (s : st K V) : res (st K V) :=
    match l with [] => Ok s | a :: l' => s1 <- cbo_do c a s ;; cbo_play c l' s1 end.

  (** a whole session: construction, then the calls *)
  Definition cbo_session (c : cfg K V) (x0 : arr V) (checked : bool) (alpha sigma lamda dt : F) (perm0 : nat -> list nat)
      (names : option (list string)) (extra : list trk) (save : option nat) (l : list call) : res (st K V) :=
    s <- init c x0 checked alpha sigma lamda dt perm0 names extra save ;; cbo_play c l s.

  (** [b] is [a] with points mapped by phi, drifts by lin, energies by psi; everything else agrees *)
  Definition cbo_mapped (PV : V -> Prop) (phi lin : V -> V) (psi : F -> F) (a b : st K V) : Prop :=
    state_related (fun v v' => PV v /\ v' = phi v) (fun v v' => PV v /\ v' = lin v) (fun e e' => e' = psi e) eq eq a b.
End SessSpec.

(** the draws of a call mapped by [chi] *)
Definition change_draws {K V V'} (chi : V -> V') (a : call (K := K) (V := V)) : call (K := K) (V := V') :=
  match a with
  | CaStep o => CaStep {| o_z := fun k n => chi (o_z o k n); o_perm := o_perm o |}
  | CaTerminate => CaTerminate
  | CaParameters al sg la dt => CaParameters al sg la dt
  | CaReset => CaReset
  end.

(** The calls use finite parameters, draws from R^d and permutations of the particles. *)
Fixpoint sensible_calls (d M N : nat) (l : list (call (K := R) (V := vec))) : Prop :=
  match l with
  | [] => True
  | CaStep o :: l' => (forall i n, real_point d (o_z o i n)) /\ (forall m, m < M -> Permutation (o_perm o m) (seq 0 N)) /\ sensible_calls d M N l'
  | CaParameters al sg la dt :: l' => (finite_scalar al /\ finite_scalar sg /\ finite_scalar la /\ time_step dt) /\ sensible_calls d M N l'
  | _ :: l' => sensible_calls d M N l'
  end.
