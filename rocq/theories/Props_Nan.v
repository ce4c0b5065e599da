(** * Properties: undefined objective values (C106) *)
From Coq Require Import String List Arith Bool Lia Reals Lra.
From Verif Require Import Scalar Np NpFacts State Pdyn PdynStep PdynOk Exec RunFacts RVec ConsSpec Consensus ConsFacts PostProc Cbo CboSpec CboFacts NanSpec NanFacts ExCbo ExNan.
Import ListNotations.
Open Scope R_scope.

(** C106. For alpha > 0 the consensus of finite points is either the Gibbs-weighted mean (finite energies, some may be +inf but not all) or NaN in
    every coordinate (a NaN, an energy -inf, or nothing but +inf). *)
Theorem C106_dichotomy : forall a E d X, 0 < a -> E <> [] -> ensemble (length E) d X -> (0 < d)%nat ->
  (admissible a E /\ cc_default E (map floats X) (Fin a) = [floats (gibbs_point a E d X)]) \/
  (undefined_mean E /\ cc_default E (map floats X) (Fin a) = [repeat NaN d]).
Proof. exact mean_dichotomy. Qed.
Print Assumptions C106_dichotomy.

(** C106. In the second case every particle that is updated loses its position, whatever the noise model, the draws and the parameters; the
    others are post-processed only. *)
Theorem C106_step : forall f k pp b partial cat ks save s log o s' kk m xr xb a d,
  let c := cbo_cfg f k pp NoCorr b partial cat ks save in
  exec c s log -> perms_valid o s -> finite_draws d o -> step c o s = Ok s' ->
  nth_error (s_active s) kk = Some m -> nth_error (s_x s) m = Some xr -> (forall v, In v xr -> length v = d) ->
  nth_error (s_alpha s) m = Some [Fin a] -> 0 < a -> takeM xr (run_sel c o s m) = Ok xb -> undefined_mean (map f xb) ->
  exists xr', nth_error (s_x s') m = Some xr' /\ length xr' = length xr /\ forall n v, nth_error xr n = Some v ->
    (In n (run_selp c o s m) -> nth_error xr' n = Some (pp (repeat NaN d))) /\ (~ In n (run_selp c o s m) -> nth_error xr' n = Some (pp v)).
Proof. exact dead_step. Qed.
Print Assumptions C106_step.

(** C106. With the default post-processing, full updates and multiplicative noise one such batch ends the search of the run: all its particles go to
    (max_thresh, …, max_thresh) and stay there for ever, whatever the objective is there and whatever steps, checks, parameter changes and
    resets follow. *)
Theorem C106_recovers_refuted : forall f k t b partial cat ks save d s log o s1 s' kk m xr xb a, 0 <= t ->
  let c := cbo_cfg f k (pp_point t false) NoCorr b partial cat ks save in
  exec c s log -> perms_valid o s -> finite_draws d o -> finite_alpha s -> finite_parameters s -> k <> NConst -> b = s_N s \/ partial = false ->
  nth_error (s_active s) kk = Some m -> nth_error (s_x s) m = Some xr -> (forall v, In v xr -> length v = d) ->
  nth_error (s_alpha s) m = Some [Fin a] -> 0 < a -> takeM xr (run_sel c o s m) = Ok xb -> undefined_mean (map f xb) ->
  step c o s = Ok s1 -> later c d s1 s' -> all_at s' m (repeat t d).
Proof. exact dead_for_ever. Qed.
Print Assumptions C106_recovers_refuted.

(** three particles, one of them where the objective is NaN … *)
Example C106_nan_case : exists s s1, let c := cbo_cfg nanf NIso (pp_point 100000000 false) NoCorr 3 true false [] false in
  exec c s [] /\ perms_valid corc s /\ finite_draws 2 corc /\ finite_alpha s /\ finite_parameters s /\ 3%nat = s_N s /\
  nth_error (s_active s) 0 = Some 0%nat /\ nth_error (s_x s) 0 = Some (map floats cX) /\ (forall v, In v (map floats cX) -> length v = 2%nat) /\
  nth_error (s_alpha s) 0 = Some [Fin 1] /\ takeM (map floats cX) (run_sel c corc s 0) = Ok (map floats cX) /\
  undefined_mean (map nanf (map floats cX)) /\ step c corc s = Ok s1 /\ later c 2 s1 s1.
Proof. exact ex_nan. Qed.
(** … and one whose particles all violate a hard constraint (objective +inf) *)
Example C106_infeasible_case : exists s s1, let c := cbo_cfg inff NIso (pp_point 100000000 false) NoCorr 3 true false [] false in
  exec c s [] /\ perms_valid corc s /\ finite_draws 2 corc /\ finite_alpha s /\ finite_parameters s /\ 3%nat = s_N s /\
  nth_error (s_active s) 0 = Some 0%nat /\ nth_error (s_x s) 0 = Some (map floats cX) /\ (forall v, In v (map floats cX) -> length v = 2%nat) /\
  nth_error (s_alpha s) 0 = Some [Fin 1] /\ takeM (map floats cX) (run_sel c corc s 0) = Ok (map floats cX) /\
  undefined_mean (map inff (map floats cX)) /\ step c corc s = Ok s1 /\ later c 2 s1 s1.
Proof. exact ex_inf. Qed.
