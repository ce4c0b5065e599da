(** * Specification of the recorded history *)
From Coq Require Import String List Arith Bool.
From Verif Require Import Scalar Np State Pdyn Exec.
Import ListNotations.
Open Scope string_scope.
Open Scope nat_scope.
Open Scope list_scope.

Section HistSpec.
  Context {K V : Type} {O : KOps K}.
  Notation st := (st K V).
  Notation cfg := (cfg K V).

  (** [recorded_run c s pairs s']: from [s], steps interleaved with termination checks and parameter
      changes lead to [s']; [pairs] lists, for each step, the state before and after it. *)
  Inductive recorded_run (c : cfg) (s : st) : list (st * st) -> st -> Prop :=
  | rr_nil : recorded_run c s [] s
  | rr_step : forall l s1 o s2, recorded_run c s l s1 -> perms_valid o s1 -> step c o s1 = Ok s2 ->
      recorded_run c s (l ++ [(s1, s2)]) s2
  | rr_term : forall l s1 r s2, recorded_run c s l s1 -> terminate c s1 = Ok (r, s2) -> recorded_run c s l s2
  | rr_params : forall l s1 s2, recorded_run c s l s1 -> params_changed s1 s2 -> recorded_run c s l s2.

  (** the documented value of each tracked name after a step from [a] to [b]; counters and time are
      recorded before they are advanced *)
  Definition documented (c : cfg) (name : string) (a b : st) : option (hval K V) :=
    if String.eqb name "x" then Some (HX (s_x b))
    else if String.eqb name "update_norm" then Some (HUpd (s_udiff b))
    else if String.eqb name "energy" then Some (HEnergy (s_energy b))
    else if String.eqb name "consensus" then Some (HCons (s_cons b))
    else if String.eqb name "drift_mean" then option_map (fun d => HMean (map (c_dmean c) d)) (s_drift b)
    else if String.eqb name "drift" then Some (HDrift (s_drift b))
    else if String.eqb name "alpha" then Some (HArr (s_alpha b))
    else if String.eqb name "t" then Some (HNum (s_t a))
    else if String.eqb name "it" then Some (HNat (s_it a))
    else if String.eqb name "best_energy" then Some (HUpd (s_be b))
    else if String.eqb name "best_particle" then Some (HVec (s_bp b))
    else if String.eqb name "f_min" then Some (HUpd (s_fmin b))
    else if String.eqb name "num_f_eval" then Some (HNats (s_nfe b))
    else if String.eqb name "dt" then Some (HNum (s_dt b))
    else if String.eqb name "sigma" then Some (HNum (s_sigma b))
    else None.

  (** names of attributes the model knows *)
  Definition known_names : list string :=
    ["x"; "update_norm"; "energy"; "consensus"; "drift_mean"; "drift"; "alpha"; "t"; "it"; "best_energy";
     "best_particle"; "f_min"; "num_f_eval"; "dt"; "sigma"].
End HistSpec.
