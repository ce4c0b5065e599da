(** * Specification: two dynamics driven by the same calls and the same random numbers *)
From Coq Require Import String List Arith Bool Permutation.
From Verif Require Import Scalar Np State Pdyn Exec TermSpec.
Import ListNotations.
Open Scope nat_scope.
Open Scope list_scope.

Section TwinSpec.
  Context {K V : Type} {O : KOps K}.
  Notation F := (fl K).
  Notation st := (st K V).
  Notation cfg := (cfg K V).
  Notation orc := (orc V).
  Variables (phi : V -> V) (psi : F -> F).

  (** [s'] is [s] with all points mapped by phi and all energies by psi; counters, parameters,
      active runs, batches and update norms agree. *)
  Record image (s s' : st) : Prop := {
    im_M : s_M s' = s_M s;
    im_N : s_N s' = s_N s;
    im_x : s_x s' = map (map phi) (s_x s);
    im_energy : s_energy s' = map (map psi) (s_energy s);
    im_be : s_be s' = map psi (s_be s);
    im_bp : s_bp s' = map phi (s_bp s);
    im_fmin : s_fmin s' = map psi (s_fmin s);
    im_udiff : s_udiff s' = s_udiff s;
    im_nfe : s_nfe s' = s_nfe s;
    im_cons : s_cons s' = option_map (map (map phi)) (s_cons s);
    im_ind : s_ind s' = s_ind s;
    im_active : s_active s' = s_active s;
    im_alpha : s_alpha s' = s_alpha s;
    im_par : s_sigma s' = s_sigma s /\ s_lamda s' = s_lamda s /\ s_dt s' = s_dt s;
    im_time : s_t s' = s_t s /\ s_it s' = s_it s }.

  (** the tolerance of energy_tol is mapped, the other criteria are the same *)
  Definition image_crit (k : crit K V) : crit K V :=
    match k with CEnergyTol tol => CEnergyTol (psi tol) | _ => k end.

  (** [paired c c' chi Q QO s s']: s and s' are reached by the same calls: construction from
      mapped points, steps with draws mapped by chi and the same permutations,
      termination checks, the same parameter changes, resets.  [Q] is required of the state
      after construction and after parameter changes, [QO] of the draws. *)
  Inductive paired (c c' : cfg) (chi : V -> V) (Q : st -> Prop) (QO : orc -> Prop) : st -> st -> Prop :=
  | pa_init : forall x0 checked alpha sigma lamda dt perm0 names extra save s s',
      is_array (length x0) (shape1 x0) x0 -> 1 <= shape1 x0 -> 1 <= c_bsize c <= shape1 x0 ->
      (forall m, m < length x0 -> Permutation (perm0 m) (seq 0 (shape1 x0))) -> save <> Some 0 ->
      init c x0 checked alpha sigma lamda dt perm0 names extra save = Ok s ->
      init c' (map (map phi) x0) checked alpha sigma lamda dt perm0 names extra save = Ok s' ->
      Q s -> paired c c' chi Q QO s s'
  | pa_step : forall s s' o s1 s1', paired c c' chi Q QO s s' -> perms_valid o s -> QO o ->
      step c o s = Ok s1 -> step c' {| o_z := fun k n => chi (o_z o k n); o_perm := o_perm o |} s' = Ok s1' ->
      paired c c' chi Q QO s1 s1'
  | pa_term : forall s s' b b' s1 s1', paired c c' chi Q QO s s' -> terminate c s = Ok (b, s1) -> terminate c' s' = Ok (b', s1') ->
      paired c c' chi Q QO s1 s1'
  | pa_params : forall s s' al sg la d, paired c c' chi Q QO s s' -> is_array (s_M s) 1 al ->
      Q (set_alpha al (set_sigma sg (set_lamda la (set_dt d s)))) ->
      paired c c' chi Q QO (set_alpha al (set_sigma sg (set_lamda la (set_dt d s)))) (set_alpha al (set_sigma sg (set_lamda la (set_dt d s'))))
  | pa_reset : forall s s', paired c c' chi Q QO s s' -> paired c c' chi Q QO (reset s) (reset s').
End TwinSpec.

From Coq Require Import Reals.
From Verif Require Import RVec ConsSpec Cbo CboSpec.

(** finite ensembles of dimension d, finite parameters *)
Definition finite_state (d : nat) (s : State.st R vec) : Prop :=
  (finite_alpha s /\ finite_parameters s) /\ (forall row v, In row (s_x s) -> In v row -> exists p, v = floats p /\ length p = d).

(** add the constant h to an energy *)
Definition add_energy (h : R) (e : fl R) : fl R := fadd e (Fin h).
(** translate a point by a *)
Definition translate (a : list R) (v : vec) : vec := map2 fadd v (floats a).
(** A maps R^d to itself and preserves the norm *)
Definition isometry (d : nat) (A : list (list R)) : Prop :=
  length A = d /\ (forall r, In r A -> length r = d) /\ forall u, length u = d -> sqnorm (map (fun r => dot r u) A) = sqnorm u.
Definition fdot (r : list R) (v : vec) : fl R := fold_right fadd (Fin 0%R) (map2 fmul (floats r) v).
Definition rotate (A : list (list R)) (v : vec) : vec := map (fun r => fdot r v) A.
