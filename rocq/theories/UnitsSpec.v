(** * Specification: the same dynamic in other units of length, energy and time *)
From Coq Require Import String List Arith Bool Permutation Reals.
From Verif Require Import Scalar Np State Pdyn Exec TermSpec Cbo.
Import ListNotations.
Open Scope nat_scope.
Open Scope list_scope.

Section UnitsSpec.
  Context {K V : Type} {O : KOps K}.
  Notation F := (fl K).
  Notation st := (st K V).
  Notation cfg := (cfg K V).
  Notation orc := (orc V).
  (** conversion of points, draws, energies, update norms, alpha, sigma, lamda, times *)
  Record units : Type := mkunits { u_x : V -> V; u_z : V -> V; u_e : F -> F; u_n : F -> F; u_alpha : F -> F; u_sigma : F -> F; u_lamda : F -> F; u_t : F -> F }.
  Variable u : units.

  (** [s'] is [s] in other units *)
  Record converted (s s' : st) : Prop := {
    cv_M : s_M s' = s_M s;
    cv_N : s_N s' = s_N s;
    cv_x : s_x s' = map (map (u_x u)) (s_x s);
    cv_energy : s_energy s' = map (map (u_e u)) (s_energy s);
    cv_be : s_be s' = map (u_e u) (s_be s);
    cv_bp : s_bp s' = map (u_x u) (s_bp s);
    cv_fmin : s_fmin s' = map (u_e u) (s_fmin s);
    cv_udiff : s_udiff s' = map (u_n u) (s_udiff s);
    cv_nfe : s_nfe s' = s_nfe s;
    cv_cons : s_cons s' = option_map (map (map (u_x u))) (s_cons s);
    cv_ind : s_ind s' = s_ind s;
    cv_active : s_active s' = s_active s;
    cv_alpha : s_alpha s' = map (map (u_alpha u)) (s_alpha s);
    cv_par : s_sigma s' = u_sigma u (s_sigma s) /\ s_lamda s' = u_lamda u (s_lamda s) /\ s_dt s' = u_t u (s_dt s);
    cv_time : s_t s' = u_t u (s_t s) /\ s_it s' = s_it s }.

  (** tolerances and the time limit are converted *)
  Definition converted_crit (k : crit K V) : crit K V :=
    match k with CEnergyTol tol => CEnergyTol (u_e u tol) | CDiffTol tol => CDiffTol (u_n u tol) | CMaxTime T => CMaxTime (u_t u T) | _ => k end.

  (** the same calls in both units: construction, steps, termination checks, parameter changes, resets *)
  Inductive both (c c' : cfg) (Q : st -> Prop) (QO : orc -> Prop) : st -> st -> Prop :=
  | bo_init : forall x0 checked alpha sigma lamda dt perm0 names extra save s s',
      is_array (length x0) (shape1 x0) x0 -> 1 <= shape1 x0 -> 1 <= c_bsize c <= shape1 x0 ->
      (forall m, m < length x0 -> Permutation (perm0 m) (seq 0 (shape1 x0))) -> save <> Some 0 ->
      init c x0 checked alpha sigma lamda dt perm0 names extra save = Ok s ->
      init c' (map (map (u_x u)) x0) checked (u_alpha u alpha) (u_sigma u sigma) (u_lamda u lamda) (u_t u dt) perm0 names extra save = Ok s' ->
      Q s -> both c c' Q QO s s'
  | bo_step : forall s s' o s1 s1', both c c' Q QO s s' -> perms_valid o s -> QO o ->
      step c o s = Ok s1 -> step c' {| o_z := fun k n => u_z u (o_z o k n); o_perm := o_perm o |} s' = Ok s1' ->
      both c c' Q QO s1 s1'
  | bo_term : forall s s' b b' s1 s1', both c c' Q QO s s' -> terminate c s = Ok (b, s1) -> terminate c' s' = Ok (b', s1') ->
      both c c' Q QO s1 s1'
  | bo_params : forall s s' al sg la d, both c c' Q QO s s' -> is_array (s_M s) 1 al ->
      Q (set_alpha al (set_sigma sg (set_lamda la (set_dt d s)))) ->
      both c c' Q QO (set_alpha al (set_sigma sg (set_lamda la (set_dt d s))))
        (set_alpha (map (map (u_alpha u)) al) (set_sigma (u_sigma u sg) (set_lamda (u_lamda u la) (set_dt (u_t u d) s'))))
  | bo_reset : forall s s', both c c' Q QO s s' -> both c c' Q QO (reset s) (reset s').
End UnitsSpec.
Arguments units : clear implicits.

Open Scope R_scope.
Definition times_by (a : R) (v : fl R) : fl R := fmul (Fin a) v.
(** lengths times [len], energies times [en], times times [ti]: alpha is an inverse energy, lamda an inverse time, sigma an inverse square root of a time
    (a length by a square root of a time for constant noise); the draws have no unit *)
Definition cbo_units (k : noise_model) (len en ti : R) : units R vec :=
  mkunits (map (times_by len)) (fun z => z) (times_by en) (times_by len) (times_by (/ en))
    (times_by (match k with NConst => len / sqrt ti | _ => / sqrt ti end)) (times_by (/ ti)) (times_by ti).
