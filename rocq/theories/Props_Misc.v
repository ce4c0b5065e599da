(** * C15, C16, C20, C21, C68, C70: post-processing, reset, time, saved points *)
From Coq Require Import String List Arith ZArith Reals.
From Verif Require Import Scalar Np State Pdyn Exec TermSpec PostProc PostFacts HeaviFacts MiscFacts ExZ ExR ExMisc.
Import ListNotations.
Open Scope nat_scope.
Open Scope list_scope.

(** C15. After every step with the default post-processing all coordinates of all particles
    of all runs are finite and at most max_thresh in absolute value. *)
Theorem C15_positions_bounded :
  forall (K : Type) (O : KOps K) (c : cfg K (list (fl R))) t s log (o : orc (list (fl R))) s' m n i row v a,
  (0 <= t <= float_max)%R -> c_pp c = pp_point t false ->
  exec c s log -> perms_valid o s -> step c o s = Ok s' ->
  nth_error (s_x s') m = Some row -> nth_error row n = Some v -> nth_error v i = Some a ->
  exists x, a = Fin x /\ (- t <= x <= t)%R.
Proof. exact positions_bounded. Qed.
Print Assumptions C15_positions_bounded.

(** C15. What happens to each kind of coordinate. *)
Theorem C15_post_process_values : forall t a, (0 <= t <= float_max)%R -> exists x,
  pp_default t false a = Fin x /\ (- t <= x <= t)%R /\
  match a with NaN => x = t | PInf => x = t | NInf => x = (- t)%R | Fin y => x = Rmax (- t) (Rmin t y) end.
Proof. exact pp_default_spec. Qed.
Print Assumptions C15_post_process_values.

Theorem C15_in_range_unchanged : forall t y, (0 <= t <= float_max)%R -> (- t <= y <= t)%R ->
  pp_default t false (Fin y) = Fin y.
Proof. exact pp_default_in_range. Qed.
Print Assumptions C15_in_range_unchanged.

Theorem C15_idempotent : forall t a, (0 <= t <= float_max)%R ->
  pp_default t false (pp_default t false a) = pp_default t false a.
Proof. exact pp_default_idem. Qed.
Print Assumptions C15_idempotent.

Example C15_example : (0 <= 100 <= float_max)%R /\ exists s s', exec (rcfg 2 (pp_point 100 false) []) s [] /\
  perms_valid rorc s /\ step (rcfg 2 (pp_point 100 false) []) rorc s = Ok s'.
Proof.
  split; [split; [apply IZR_le; discriminate|unfold float_max; apply IZR_le; vm_compute; discriminate]|].
  apply rstep_ok. split; repeat constructor.
Qed.

(** C16. With copy_nan_to_num=True NaN coordinates survive; everything else is as in C15. *)
Theorem C16_nan_survives_refuted : forall t a, (0 <= t <= float_max)%R ->
  pp_default t true a = match a with NaN => NaN | _ => pp_default t false a end.
Proof. exact pp_copy_spec. Qed.
Print Assumptions C16_nan_survives_refuted.

(** C20. reset() sets it, t, the history and the tracking options to defaults - whatever was
    requested at construction - and changes nothing else. *)
Theorem C20_reset : forall (K V : Type) (O : KOps K) (s : st K V),
  s_it (reset s) = 0 /\ s_t (reset s) = Fin k0 /\ s_trackit (reset s) = 0 /\ s_save (reset s) = 1 /\
  s_tracks (reset s) = [TUpd; TEnergy] /\ s_hist (reset s) = [("update_norm", []); ("energy", [])]%string /\
  reset s = set_hist (s_hist (reset s)) (set_tracks (s_tracks (reset s)) (set_save 1 (set_trackit 0
              (set_t (Fin k0) (set_it 0 s))))).
Proof. exact @reset_spec. Qed.
Print Assumptions C20_reset.

(** C20. So a dynamic which has seen a finite energy is never as freshly constructed after
    reset(), whatever the constructor arguments. *)
Theorem C20_reset_not_fresh_refuted : forall (K V : Type) (O : KOps K) (c : cfg K V) (s : st K V) m e,
  nth_error (s_be s) m = Some e -> e <> PInf -> ~ constructed c (reset s).
Proof. exact @reset_not_fresh. Qed.
Print Assumptions C20_reset_not_fresh_refuted.

Example C20_example : exists s log, exec zc1 s log /\ s_be s = [Fin 16; Fin 4]%Z /\ s_nfe s = [6; 4] /\ s_it s = 3.
Proof. exact reset_example. Qed.

(** C21. After n iterations with constant dt: it = it0 + n and t = t0 + n dt. *)
Theorem C21_time : forall (V : Type) (c : cfg R V) sched s log n s' t d,
  exec c s log -> param_sched sched -> keeps_dt sched -> s_t s = Fin t -> s_dt s = Fin d ->
  loop c sched s n s' -> s_it s' = s_it s + n /\ s_t s' = Fin (t + INR n * d)%R.
Proof. exact @time_after. Qed.
Print Assumptions C21_time.

(** C21. With max_time = T and dt > 0, optimize performs exactly the least n steps with
    t0 + n dt >= T. *)
Theorem C21_max_time : forall (V : Type) (c : cfg R V) sched os T d i s log t,
  exec c s log -> 1 <= s_M s -> plain c (s_N s) ->
  param_sched sched -> total_sched sched -> keeps_dt sched -> in_range os s ->
  c_crit c = [CMaxTime (Fin T)] -> s_t s = Fin t -> s_dt s = Fin d -> (0 < d)%R ->
  exists n, (T <= t + INR n * d)%R /\ (forall k, k < n -> (t + INR k * d < T)%R) /\
    forall fuel, (fuel < n -> optimize_loop c (step c) sched os fuel i s = None) /\
      (n <= fuel -> exists s', optimize_loop c (step c) sched os fuel i s = Some (Ok s') /\
         s_it s' = s_it s + n /\ s_t s' = Fin (t + INR n * d)%R).
Proof. exact @maxtime_stops. Qed.
Print Assumptions C21_max_time.

Example C21_example : exists s, exec (rcfg 2 (fun v => v) [CMaxTime (Fin (5/4)%R)]) s [] /\
  1 <= s_M s /\ plain (rcfg 2 (fun v => v) [CMaxTime (Fin (5/4)%R)]) (s_N s) /\
  param_sched rid /\ total_sched rid /\ keeps_dt rid /\ in_range (fun _ => rorc) s /\
  s_t s = Fin 0%R /\ s_dt s = Fin (/2)%R /\ (5/4 <= 0 + INR 3 * /2)%R /\ (forall k, k < 3 -> (0 + INR k * /2 < 5/4)%R).
Proof. exact time_example. Qed.

(** C68. consensus_eval_points[m,n] is a point with objective value energy[m,n], unless that
    energy is still +inf. *)
Theorem C68_saved_points : forall (K V : Type) (O : KOps K) (c : cfg K V) s log (o : orc V) s',
  exec c s log -> plain c (s_N s) -> c_savepts c = true -> perms_valid o s -> step c o s = Ok s' ->
  exists p, s_cep s' = Some p /\
    forall m n er pr e v, nth_error (s_energy s') m = Some er -> nth_error p m = Some pr ->
      nth_error er n = Some e -> nth_error pr n = Some v -> e = PInf \/ e = c_f c v.
Proof. exact @saved_points. Qed.
Print Assumptions C68_saved_points.

Example C68_example : exists s log, exec zsave s log /\ plain zsave (s_N s) /\ c_savepts zsave = true /\
  s_energy s = [[Fin 49; PInf; Fin 81]; [Fin 9; PInf; Fin 64]]%Z /\
  exists s', perms_valid (zorc 2 [1; 2; 0]) s /\ step zsave (zorc 2 [1; 2; 0]) s = Ok s' /\
    s_cep s' <> Some (s_x s') /\ s_cep s' <> s_cep s.
Proof. exact save_example. Qed.

(** C70. One consensus point per batch particle (PolarCBO), full update, 1 < b < N: a step raises. *)
Theorem C70_polar_full_update_refuted : forall (K V : Type) (O : KOps K) (c : cfg K V) s log (o : orc V),
  exec c s log -> perms_valid o s -> consensus_per_particle c -> c_partial c = false ->
  1 < c_bsize c < s_N s -> s_active s <> [] -> step c o s = Err ShapeError.
Proof. exact @polar_full_raises. Qed.
Print Assumptions C70_polar_full_update_refuted.

Example C70_example : exists s log, exec (zpolar false) s log /\ consensus_per_particle (zpolar false) /\
  1 < c_bsize (zpolar false) < s_N s /\ s_active s = [0; 1] /\ perms_valid (zorc 1 [1; 2; 0]) s.
Proof. exact polar_example. Qed.
