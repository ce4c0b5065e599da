(** * Properties: what optimize prints (C116) *)
From Coq Require Import List Arith Bool Reals ZArith.
From Verif Require Import Scalar Np State Pdyn Exec TermSpec ExZ Optimize OptimizeSpec OptimizeFacts Printing PrintSpec PrintFacts ExPrint.
Import ListNotations.
Open Scope nat_scope.
Open Scope list_scope.

(** C116. Verbosity has no influence on the run: the result is the one of optimize (C101), including exceptions. *)
Theorem C116_no_influence : forall V (c : cfg R V) stepf cbx verbosity pi a os fuel (s : st R V),
  snd (optimize_shown c stepf cbx verbosity pi a os fuel s) = optimize c stepf cbx pi a os fuel s.
Proof. exact @shown_result. Qed.
Print Assumptions C116_no_influence.

(** C116. With verbosity 0 nothing is printed. *)
Theorem C116_quiet : forall V (c : cfg R V) stepf cbx pi a os fuel (s : st R V), fst (optimize_shown c stepf cbx 0 pi a os fuel s) = [].
Proof. exact @quiet. Qed.
Print Assumptions C116_quiet.

(** C116. The best energy is printed once the call returns, and is the best_energy it leaves. *)
Theorem C116_best : forall V (c : cfg R V) stepf cbx verbosity pi a os fuel (s s' : st R V) l bp, 1 <= verbosity ->
  optimize_shown c stepf cbx verbosity pi a os fuel s = (l, Some (Ok (bp, s'))) -> forall b, In (LBest b) l <-> b = s_be s'.
Proof. exact @shown_best. Qed.
Print Assumptions C116_best.

(** C116. Every call with verbosity starts with the header, also one that raises or does not return; the best energy is printed by no call that raises. *)
Theorem C116_header : forall V (c : cfg R V) stepf cbx verbosity pi a os fuel (s : st R V) l r, 1 <= verbosity ->
  optimize_shown c stepf cbx verbosity pi a os fuel s = (l, r) ->
  firstn 3 l = [LDots; LStarting; LDots] /\ ((forall bs, r <> Some (Ok bs)) -> forall b, ~ In (LBest b) l).
Proof. exact @shown_header. Qed.
Print Assumptions C116_header.
Example C116_header_raises : exists s l, exec pcfg s [] /\ optimize_shown pcfg (step pcfg) true 2 (Some 0) SDefault (fun _ => porc) 3 s = (l, Some (Err ZeroDivision)).
Proof. exact prun_raises. Qed.

(** C116. No energy printed on the way is smaller than the best energy at the end. *)
Theorem C116_energies : forall V (c : cfg R V) cbx verbosity pi a os fuel (s s' : st R V) log l bp, no_nan c -> standard a -> exec c s log -> in_range os s ->
  optimize_shown c (step c) cbx verbosity pi a os fuel s = (l, Some (Ok (bp, s'))) ->
  forall m b b', nth_error (s_be s) m = Some b -> nth_error (s_be s') m = Some b' -> (forall e, shown_energy l m e -> fleb b' e = true) /\ fleb b' b = true.
Proof. exact @shown_energies. Qed.
Print Assumptions C116_energies.

(** C116. With print_int = 1 the best energy is exactly the least of the printed ones and the best energy before the call. *)
Theorem C116_every_step : forall V (c : cfg R V) verbosity a os fuel (s s' : st R V) log l bp, no_nan c -> standard a -> exec c s log -> in_range os s -> 1 <= verbosity ->
  optimize_shown c (step c) true verbosity (Some 1) a os fuel s = (l, Some (Ok (bp, s'))) ->
  forall m b b', nth_error (s_be s) m = Some b -> nth_error (s_be s') m = Some b' -> least b' (fun v => v = b \/ shown_energy l m v).
Proof. exact @shown_every_step. Qed.
Print Assumptions C116_every_step.

(** C116. With the documented schedules the printed times are t + j dt, for every j-th step of the call with (it + j - 1) divisible by print_int (default: save_int). *)
Theorem C116_times : forall V (c : cfg R V) verbosity pi a os fuel (s s' : st R V) l bp t dt, documented a -> 1 <= verbosity -> s_t s = Fin t -> s_dt s = Fin dt ->
  optimize_shown c (step c) true verbosity pi a os fuel s = (l, Some (Ok (bp, s'))) ->
  times l = map (fun j => Fin (t + INR j * dt)%R) (filter (fun j => (s_it s + j - 1) mod (match pi with Some p => p | None => s_save s end) =? 0) (seq 1 (s_it s' - s_it s))).
Proof. exact @shown_times. Qed.
Print Assumptions C116_times.
Example C116_run : forall pi, pi <> Some 0 -> exists s s' l, exec pcfg s [] /\ no_nan pcfg /\ s_it s = 0 /\ s_t s = Fin 0%R /\ s_dt s = Fin (/ 10)%R /\ in_range (fun _ => porc) s /\
  optimize_shown pcfg (step pcfg) true 2 pi SDefault (fun _ => porc) 3 s = (l, Some (Ok (s_bp s', s'))) /\ s_it s' = 3 /\ length (s_be s) = 2 /\ length (s_be s') = 2.
Proof. exact prun. Qed.
Example C116_run_times : exists s s' l, exec pcfg s [] /\ optimize_shown pcfg (step pcfg) true 2 (Some 2) SDefault (fun _ => porc) 3 s = (l, Some (Ok (s_bp s', s'))) /\
  times l = [Fin (/ 10)%R; Fin (3 / 10)%R].
Proof. exact prun_times. Qed.

(** C116. The "best current energy" (f_min) of a running run with full batches is the least value of its particles before the step just made ... *)
Theorem C116_f_min : forall K V (O : KOps K) (OK : KOrd K) (c : cfg K V) (o : orc V) (s s' : st K V) log, no_nan c -> exec c s log -> perms_valid o s -> c_bsize c = s_N s -> step c o s = Ok s' ->
  forall m row e, In m (s_active s) -> nth_error (s_x s) m = Some row -> nth_error (s_fmin s') m = Some e ->
  (exists v, In v row /\ e = c_f c v) /\ forall v, In v row -> fleb e (c_f c v) = true.
Proof. exact @f_min_before. Qed.
Print Assumptions C116_f_min.
(** ... and in general not the one of the particles at the time printed next to it. *)
Theorem C116_current_energy_refuted : exists (c : cfg Z Z) o s s' m row e v, no_nan c /\ exec c s [] /\ perms_valid o s /\ c_bsize c = s_N s /\ In m (s_active s) /\ step c o s = Ok s' /\
  nth_error (s_x s') m = Some row /\ nth_error (s_fmin s') m = Some e /\ In v row /\ fltb (c_f c v) e = true.
Proof.
  destruct zstep1 as (s & s' & C & P & B & A & S1 & X & F & X'). exists zc1, (zorc 0 [0; 1]), s, s', 0, [(-4)%Z; 0%Z], (Fin 0%Z), (-4)%Z. rewrite A, X', F.
  split; [intros v; reflexivity|]. split; [apply ex_init; exact C|]. split; auto. split; auto. split; [left; auto|]. split; auto. split; auto. split; auto. split; [left; auto|reflexivity].
Qed.
Print Assumptions C116_current_energy_refuted.
