(** * Specification: related outcomes and related states of two dynamics

    Two dynamics, possibly with different types of points, whose points, drifts, energies, values of
    alpha and update norms are related entry by entry. *)
From Coq Require Import String List Arith Bool.
From Verif Require Import Scalar Np State Pdyn.
Import ListNotations.
Open Scope nat_scope.
Open Scope list_scope.

(** Two outcomes: both raise the same exception, or both return related values. *)
Definition same_outcome {A B} (R : A -> B -> Prop) (r : res A) (r' : res B) : Prop :=
  match r, r' with Ok a, Ok b => R a b | Err e, Err e' => e = e' | _, _ => False end.
(** arrays of the same shape with related entries *)
Definition entries {A B} (R : A -> B -> Prop) : arr A -> arr B -> Prop := Forall2 (Forall2 R).
Definition both {A B C D} (R : A -> B -> Prop) (S : C -> D -> Prop) (p : A * C) (q : B * D) : Prop := R (fst p) (fst q) /\ S (snd p) (snd q).
(** an attribute is missing in both objects, or present in both and related *)
Definition maybe {A B} (R : A -> B -> Prop) (a : option A) (b : option B) : Prop :=
  match a, b with Some x, Some y => R x y | None, None => True | _, _ => False end.

Section SimSpec.
  Context {K V V' : Type}.
  Notation F := (fl K).
  Variables (RV RD : V -> V' -> Prop) (RE RA RU : F -> F -> Prop).

  (** values in the history; two rows of floats are update norms or energies.  The mean absolute
      drift depends on the coordinates; only its number of entries is compared. *)
  Definition hist_related (h : hval K V) (h' : hval K V') : Prop :=
    match h, h' with
    | HX x, HX x' => entries RV x x'
    | HUpd u, HUpd u' => Forall2 RU u u' \/ Forall2 RE u u'
    | HEnergy e, HEnergy e' => entries RE e e'
    | HCons a, HCons a' => maybe (entries RV) a a'
    | HMean m, HMean m' => length m' = length m
    | HDrift a, HDrift a' => maybe (entries RD) a a'
    | HIdx i, HIdx i' => i' = i
    | HNat n, HNat n' => n' = n
    | HNats n, HNats n' => n' = n
    | HArr a, HArr a' => entries RA a a'
    | HVec v, HVec v' => Forall2 RV v v'
    | HNum a, HNum a' => a' = a
    | _, _ => False
    end.

  Record state_related (s : st K V) (s' : st K V') : Prop := mkrelated {
    rl_M : s_M s' = s_M s;
    rl_N : s_N s' = s_N s;
    rl_x : entries RV (s_x s) (s_x s');
    rl_xold : maybe (entries RV) (s_xold s) (s_xold s');
    rl_energy : entries RE (s_energy s) (s_energy s');
    rl_cons : maybe (entries RV) (s_cons s) (s_cons s');
    rl_drift : maybe (entries RD) (s_drift s) (s_drift s');
    rl_alpha : entries RA (s_alpha s) (s_alpha s');
    rl_sigma : s_sigma s' = s_sigma s;
    rl_lamda : s_lamda s' = s_lamda s;
    rl_dt : s_dt s' = s_dt s;
    rl_t : s_t s' = s_t s;
    rl_it : s_it s' = s_it s;
    rl_be : Forall2 RE (s_be s) (s_be s');
    rl_bce : Forall2 RE (s_bce s) (s_bce s');
    rl_bp : Forall2 RV (s_bp s) (s_bp s');
    rl_bcp : Forall2 RV (s_bcp s) (s_bcp s');
    rl_fmin : Forall2 RE (s_fmin s) (s_fmin s');
    rl_udiff : Forall2 RU (s_udiff s) (s_udiff s');
    rl_nfe : s_nfe s' = s_nfe s;
    rl_fcalls : s_fcalls s' = s_fcalls s;
    rl_active : s_active s' = s_active s;
    rl_reason : s_reason s' = s_reason s;
    rl_cidx : s_cidx s' = s_cidx s;
    rl_pidx : s_pidx s' = s_pidx s;
    rl_ind : s_ind s' = s_ind s;
    rl_cep : maybe (entries RV) (s_cep s) (s_cep s');
    rl_tracks : s_tracks s' = s_tracks s;
    rl_hist : Forall2 (both eq (Forall2 hist_related)) (s_hist s) (s_hist s');
    rl_trackit : s_trackit s' = s_trackit s;
    rl_save : s_save s' = s_save s }.
End SimSpec.
