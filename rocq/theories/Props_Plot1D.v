(** * C128: plots of one-dimensional dynamics and of the objective *)
From Coq Require Import List Arith Bool Reals Lra.
From Verif Require Import Scalar Np State Pdyn PdynFacts PdynOk Exec RVec ConsSpec Cbo CboSpec Plotting Plot1D Plot1DFacts ExPlot1D.
Import ListNotations.
Open Scope R_scope.

(** C128. The curve is the graph of the objective over equally spaced points that include both limits. *)
Theorem C128_curve : forall f n a b, (2 <= n)%nat ->
  length (plot_1D f n a b) = n /\
  (forall k, (k < n)%nat -> let x := a + INR k / INR (n - 1) * (b - a) in nth_error (plot_1D f n a b) k = Some (x, f [x])) /\
  nth_error (plot_1D f n a b) 0 = Some (a, f [a]) /\ nth_error (plot_1D f n a b) (n - 1) = Some (b, f [b]).
Proof. exact curve_spec. Qed.
Print Assumptions C128_curve.

(** C128. The value drawn by contour_2D at (x, y) is that of the point with coordinate x in the first chosen dimension,
    y in the second and 0 in all others. *)
Theorem C128_contour : forall f n x_min x_max y_min y_max d i1 i2 ylo yhi, (2 <= n)%nat -> (i1 < d)%nat -> (i2 < d)%nat -> i1 <> i2 ->
  limit_used x_min y_min ylo -> limit_used x_max y_max yhi ->
  exists rows, contour_2D f n x_min x_max y_min y_max d [i1; i2] = Ok rows /\ length rows = n /\
    forall i j, (i < n)%nat -> (j < n)%nat ->
      let x := x_min + INR j / INR (n - 1) * (x_max - x_min) in
      let y := ylo + INR i / INR (n - 1) * (yhi - ylo) in
      exists row z, nth_error rows i = Some row /\ length row = n /\ nth_error row j = Some (x, y, f z) /\
        length z = d /\ nth_error z i1 = Some x /\ nth_error z i2 = Some y /\
        forall k, (k < d)%nat -> k <> i1 -> k <> i2 -> nth_error z k = Some 0.
Proof. exact contour_spec. Qed.
Print Assumptions C128_contour.
Example C128_contour_case : limit_used (-1) None (-1) /\ limit_used 1 (Some 3) 3 /\ limit_used (-1) (Some 0) (-1) /\ (1 < 3)%nat /\ (2 < 3)%nat /\ 1%nat <> 2%nat.
Proof. split; [constructor|]. split; [constructor; lra|]. split; [constructor|]. repeat split; auto. Qed.

(** A chosen dimension outside the space raises. *)
Theorem C128_contour_raises : forall f n x_min x_max y_min y_max d dims i, (1 <= n)%nat -> In i dims -> (d <= i)%nat ->
  contour_2D f n x_min x_max y_min y_max d dims = Err IndexError.
Proof. exact contour_raises. Qed.
Print Assumptions C128_contour_raises.

(** C128. The first picture of a one-dimensional dynamic: the particles on the graph, and again as consensus on the axis. *)
Theorem C128_first_picture : forall (c : cfg R vec) s f num_run xs pd, constructed c s -> nth_error (s_x s) num_run = Some (map (fun a => [a]) xs) ->
  first_pic f num_run 0 true true pd s = Ok (mkpic (map (fun a => (a, f [a])) xs) (Some (map (fun a => (a, Fin 0)) xs)) false (s_N s)).
Proof. exact first_spec. Qed.
Print Assumptions C128_first_picture.

(** C128. The picture after a step of CBO: the particles before the step on the graph of the objective, their Gibbs mean on the axis. *)
Theorem C128_picture : forall (f : vec -> fl R) kd (pp : vec -> vec) b partial cat ks save s log (o : orc vec) s' num_run (xs : list R) a,
  let c := cbo_cfg f kd pp NoCorr b partial cat ks save in
  exec c s log -> perms_valid o s -> step c o s = Ok s' -> finite_obj 1 f ->
  length (s_active s) = s_M s -> nth_error (s_x s) num_run = Some (map (fun p => [Fin p]) xs) -> nth_error (s_alpha s) num_run = Some [Fin a] ->
  exists q, next_pic f num_run 0 true true false s' =
      Ok (mkpic (map (fun p => (Fin p, f [Fin p])) xs) (Some [(Fin q, Fin 0)]) false (s_N s)) /\
    exists X, length X = b /\ (forall x, In x X -> In x xs) /\ (b = s_N s -> X = xs) /\
      [q] = gibbs_point a (map (fun p => f [Fin p]) X) 1 (map (fun p => [p]) X).
Proof. exact picture_spec. Qed.
Print Assumptions C128_picture.
Example C128_picture_case : exists s s', constructed pcfg s /\ exec pcfg s [] /\ perms_valid lorc s /\ step pcfg lorc s = Ok s' /\ finite_obj 1 parab /\
  length (s_active s) = s_M s /\ s_N s = 3%nat /\ nth_error (s_x s) 0 = Some (map (fun p => [Fin p]) [0; 2; 3]) /\ nth_error (s_alpha s) 0 = Some [Fin 5].
Proof. exact plot1d_case. Qed.

(** C128, refuted: "the consensus point is drawn on the graph, as the particles are".  For a positive objective it never is. *)
Theorem C128_consensus_on_graph_refuted : forall (f : vec -> fl R) (q : R), (forall p, exists y, f [Fin p] = Fin y /\ 0 < y) ->
  ~ (exists p, (Fin q, Fin 0) = (Fin p, f [Fin p])).
Proof. exact off_graph. Qed.
Print Assumptions C128_consensus_on_graph_refuted.
Example C128_consensus_on_graph_case : forall p, exists y, parab [Fin p] = Fin y /\ 0 < y.
Proof. exact parab_pos. Qed.

(** C128. plot_drift has no effect: the pictures are those without it, and it is switched off. *)
Theorem C128_no_drift : forall f m i ev pc s0 ss, live_plot f m i ev pc true s0 ss = live_plot f m i ev pc false s0 ss /\
  forall ps, live_plot f m i ev pc true s0 ss = Ok ps -> Forall (fun p => q_drift p = false) ps.
Proof. exact no_drift. Qed.
Print Assumptions C128_no_drift.

(** C128. Each picture evaluates the objective at the N particles of the run (counted nowhere); none with eval_energy_1d = False. *)
Theorem C128_evaluations : forall f m i ev pc pd N s0 ss ps, rect (s_M s0) N (s_x s0) ->
  Forall (fun s => forall xo, s_xold s = Some xo -> rect (s_M s) N xo) ss ->
  live_plot f m i ev pc pd s0 ss = Ok ps -> total_evals ps = if ev then ((1 + length ss) * N)%nat else 0%nat.
Proof. exact plot_evals. Qed.
Print Assumptions C128_evaluations.
Example C128_evaluations_case : exists s s' ps, constructed pcfg s /\ step pcfg lorc s = Ok s' /\ rect (s_M s) 3 (s_x s) /\
  (forall xo, s_xold s' = Some xo -> rect (s_M s') 3 xo) /\ live_plot parab 0 0 true true true s [s'] = Ok ps /\ total_evals ps = 6%nat.
Proof. exact evals_case. Qed.
