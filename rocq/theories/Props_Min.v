(** * C63, C64, C77, C78, C79, C80: the benchmark objectives *)
From Coq Require Import List Arith Bool Reals Lra Lia.
From Verif Require Import Scalar Np Nd Objective ObjSpec Squeeze SqueezeFacts Objectives MinSpec MinSpec2 MinFacts MinFacts2 MinFacts3 MinFacts4 MinFacts5 MinDef.
Import ListNotations.
Open Scope R_scope.

(** C63. Every function considered has a value in every point of its domain. *)
Theorem C63_defined_2 : defined_on 2 three_hump_camel /\ defined_on 2 McCormick /\ (forall a b, defined_on 2 (Rosenbrock a b)) /\ (forall k, defined_on 2 (Himmelblau k)) /\
  defined_on 2 Easom /\ defined_on 2 drop_wave /\ defined_on 2 Bukin6 /\ (forall al, defined_on 2 (snowflake al)) /\ defined_on 2 cross_in_tray /\ defined_on 2 eggholder /\
  (forall a b, defined_on 2 (Holder_table a b)) /\ (forall a b, defined_on 2 (Unimodal a b)) /\ (forall a b c d, defined_on 2 (Bimodal a b c d)) /\ (forall a b c, defined_on 2 (Banana a b c)).
Proof. exact defined_2. Qed.
Print Assumptions C63_defined_2.
Theorem C63_defined_d : forall d, (forall al, defined_on d (Quadratic al)) /\ (forall b c A, defined_on d (Rastrigin b c A)) /\ defined_on d p_4th_order /\ (forall m, defined_on d (Michalewicz m)) /\
  (forall a, defined_on d (accelerated_sinus a)) /\ ((0 < d)%nat -> defined_on d nd_sinus) /\
  (forall A b c m, (0 < d)%nat -> (forall l, m = Some l -> length l = d \/ length l = 1%nat) -> defined_on d (Ackley A b c m)).
Proof. exact defined_d. Qed.
Print Assumptions C63_defined_d.

(** C63. three_hump_camel: minimum 0, attained in the origin only *)
Theorem C63_camel : global_min three_hump_camel [0; 0] 0 /\ only_point three_hump_camel [0; 0] 0.
Proof. exact camel_min. Qed.
Print Assumptions C63_camel.
(** C63. Rosenbrock: minimum 0 in (a, a^2) for b >= 0 (unique for b > 0) *)
Theorem C63_rosenbrock : forall pa pb, 0 <= pb -> global_min (Rosenbrock pa pb) [pa; pa ^ 2] 0 /\ (0 < pb -> only_point (Rosenbrock pa pb) [pa; pa ^ 2] 0).
Proof. exact rosenbrock_min. Qed.
Print Assumptions C63_rosenbrock.
Example C63_rosenbrock_example : (0 <= 100) /\ exists w, Rosenbrock 1 100 [2; 5] = Ok w /\ w = 101.
Proof. split; [lra|]. eexists. split; [reflexivity|]. lra. Qed.
(** C63. Himmelblau: minimum 0; exactly four minimisers, which the listed points approximate to 1e-5 for factor 1 *)
Theorem C63_himmelblau : forall k, k <> 0 -> global_min (Himmelblau k) [3 / k; 2 / k] 0 /\ (forall q w, Himmelblau k q = Ok w -> 0 <= w).
Proof. exact himmelblau_min. Qed.
Print Assumptions C63_himmelblau.
Theorem C63_himmelblau_four : exists ps, length ps = 4%nat /\ Forall2 (Forall2 (fun a b => Rabs (a - b) < 1 / 100000)) Himmelblau_minima ps /\ NoDup ps /\
  forall k q, k <> 0 -> length q = 2%nat -> (Himmelblau k q = Ok 0 <-> In (map (Rmult k) q) ps).
Proof. exact himmelblau_four. Qed.
Print Assumptions C63_himmelblau_four.
(** C63. ... only the first of them is listed exactly *)
Theorem C63_himmelblau_listed : forall p, In p Himmelblau_minima -> exists w, Himmelblau 1 p = Ok w /\ 0 <= w < 1 / 1000000000 /\ (w = 0 <-> p = [3; 2]).
Proof. exact himmelblau_listed. Qed.
Print Assumptions C63_himmelblau_listed.
(** C63. Rastrigin: minimum c in (b,...,b) only, for A >= 0 and every dimension *)
Theorem C63_rastrigin : forall b c A d, 0 <= A -> global_min (Rastrigin b c A) (repeat b d) c /\ only_point (Rastrigin b c A) (repeat b d) c.
Proof. exact rastrigin_min. Qed.
Print Assumptions C63_rastrigin.
Example C63_rastrigin_example : (0 <= 10) /\ exists w, Rastrigin 0 0 10 [1; 2] = Ok w.
Proof. split; [lra|]. eexists. reflexivity. Qed.
(** C63. Ackley: minimum 0 in the given minimum (the origin by default) only, for A, b > 0 and every dimension *)
Theorem C63_ackley : forall A b c minimum d, (0 < d)%nat -> 0 <= A -> 0 <= b -> (forall m, minimum = Some m -> length m = d \/ length m = 1%nat) ->
  let p := match minimum with None => repeat 0 d | Some m => expand d m end in
  global_min_dim d (Ackley A b c minimum) p 0 /\ (0 < A -> 0 < b -> only_point (Ackley A b c minimum) p 0).
Proof. exact ackley_min. Qed.
Print Assumptions C63_ackley.
Example C63_ackley_example : (0 < 2)%nat /\ (0 < 20) /\ (0 < 2 / 10) /\ (forall m, Some [1; 3] = Some m -> length m = 2%nat \/ length m = 1%nat) /\ expand 2 [1; 3] = [1; 3].
Proof. repeat split; try lra; try lia. intros m H. injection H as <-. auto. Qed.
(** C63. Easom: minimum -1 in (pi, pi) only *)
Theorem C63_easom : global_min Easom [PI; PI] (- 1) /\ only_point Easom [PI; PI] (- 1).
Proof. exact easom_min. Qed.
Print Assumptions C63_easom.
(** C63. snowflake: minimum -1/4, attained exactly in the six listed points *)
Theorem C63_snowflake : forall al, al <> 0 -> (forall q w, length q = 2%nat -> snowflake al q = Ok w -> - (1 / 4) <= w) /\
  forall q, length q = 2%nat -> (snowflake al q = Ok (- (1 / 4)) <-> In q (snowflake_minima al)).
Proof. exact snowflake_min. Qed.
Print Assumptions C63_snowflake.
Example C63_snowflake_example : forall al, al <> 0 -> length (snowflake_minima al) = 6%nat /\ forall q, In q (snowflake_minima al) -> snowflake al q = Ok (- (1 / 4)).
Proof.
  intros al H. split; auto. intros q Hq. assert (length q = 2%nat). { unfold snowflake_minima in Hq. apply in_map_iff in Hq. destruct Hq as (p & <- & _). reflexivity. }
  exact (proj2 (proj2 (snowflake_min al H) q H0) Hq).
Qed.
(** C63. Quadratic: minimum 0 in the origin (only, for alpha <> 0) *)
Theorem C63_quadratic : forall alpha d, global_min (Quadratic alpha) (repeat 0 d) 0 /\ (alpha <> 0 -> only_point (Quadratic alpha) (repeat 0 d) 0).
Proof. exact quadratic_min. Qed.
Print Assumptions C63_quadratic.

(** C64. Bukin6: the listed minimum (0,0) has value 1/10; the minimum is 0, in (-10,1) only. *)
Theorem C64_bukin : Bukin6_minima = [[0; 0]] /\ Bukin6 [0; 0] = Ok (1 / 10) /\ global_min Bukin6 [- 10; 1] 0 /\ only_point Bukin6 [- 10; 1] 0.
Proof. exact (conj (proj1 bukin_listed) (conj (proj2 bukin_listed) bukin_min)). Qed.
Print Assumptions C64_bukin.
(** C64. drop_wave: the minimum is -2, not the documented -1 (in the documented point). *)
Theorem C64_drop_wave : global_min drop_wave [0; 0] (- 2) /\ only_point drop_wave [0; 0] (- 2).
Proof. exact drop_wave_min. Qed.
Print Assumptions C64_drop_wave.
(** C64. Himmelblau with another factor than 1: the listed point (3,2) is no minimiser. *)
Theorem C64_himmelblau : forall k, k <> 1 -> exists w, Himmelblau k [3; 2] = Ok w /\ 0 < w.
Proof. exact himmelblau_factor. Qed.
Print Assumptions C64_himmelblau.
(** C64. Rosenbrock with b < 0 and Rastrigin with A < -1/8 do not have the documented minima. *)
Theorem C64_rosenbrock : forall pa pb, pb < 0 -> unbounded_below (Rosenbrock pa pb).
Proof. exact rosenbrock_unbounded. Qed.
Print Assumptions C64_rosenbrock.
Theorem C64_rastrigin : forall b c A, A < - 1 / 8 -> exists w, Rastrigin b c A [b + 1 / 2] = Ok w /\ w < c.
Proof. exact rastrigin_negative. Qed.
Print Assumptions C64_rastrigin.

(** C77. p_4th_order: minimum 1 - d/4, attained exactly where every coordinate is a square root of 1/2 *)
Theorem C77_p_4th_order : forall d, let p := repeat (sqrt (1 / 2)) d in global_min_dim d p_4th_order p (1 - INR d / 4) /\
  (forall q, length q = d -> (p_4th_order q = Ok (1 - INR d / 4) <-> forall v, In v q -> v ^ 2 = 1 / 2)).
Proof. exact p4_min. Qed.
Print Assumptions C77_p_4th_order.
Theorem C77_unimodal : forall a0 a1, global_min (Unimodal a0 a1) [a0; a1] (ln 2) /\ only_point (Unimodal a0 a1) [a0; a1] (ln 2).
Proof. exact unimodal_min. Qed.
Print Assumptions C77_unimodal.
(** C77. Lower bounds *)
Theorem C77_bimodal : forall a0 a1 b0 b1 q w, Bimodal a0 a1 b0 b1 q = Ok w -> - ln (3 / 2) <= w.
Proof. exact bimodal_bound. Qed.
Print Assumptions C77_bimodal.
Theorem C77_banana : forall m s sp q w, s <> 0 -> sp <> 0 -> Banana m s sp q = Ok w -> 0 <= w.
Proof. exact banana_bound. Qed.
Print Assumptions C77_banana.
Theorem C77_nd_sinus : forall q w, nd_sinus q = Ok w -> 0 <= w.
Proof. exact nd_sinus_bound. Qed.
Print Assumptions C77_nd_sinus.
Theorem C77_accelerated_sinus : forall a q w, accelerated_sinus a q = Ok w -> 0 <= w <= 2.
Proof. exact accelerated_sinus_bound. Qed.
Print Assumptions C77_accelerated_sinus.
(** ... it is 1 at the origin, 1 + sin(a/2) on the unit sphere, and takes equal values at radii r and 1/r. *)
Theorem C77_accelerated_sinus_values : forall a q q' w w', accelerated_sinus a q = Ok w -> accelerated_sinus a q' = Ok w' ->
  (norm q = 0 -> w = 1) /\ (norm q = 1 -> w = 1 + sin (a / 2)) /\ (norm q * norm q' = 1 -> w = w').
Proof. exact accelerated_sinus_values. Qed.
Print Assumptions C77_accelerated_sinus_values.
Example C77_accelerated_sinus_ex : norm [0; 0] = 0 /\ norm [0; 1] = 1 /\ norm [2; 0] * norm [0; / 2] = 1.
Proof. exact norm_cases. Qed.
Theorem C77_michalewicz : forall m q w, Michalewicz m q = Ok w -> - INR (length q) <= w <= INR (length q).
Proof. exact michalewicz_bound. Qed.
Print Assumptions C77_michalewicz.
Example C77_example : (exists w, Bimodal 1 2 3 4 [0; 0] = Ok w) /\ (exists w, Banana 0 1 2 [1; 1] = Ok w) /\ (exists w, nd_sinus [1; 2; 3] = Ok w) /\ exists w, Michalewicz 10 [1; 2] = Ok w.
Proof. repeat split; eexists; reflexivity. Qed.

(** C78. The documented global minima of these functions do not exist on the plane: there is no lower bound. *)
Theorem C78_mccormick : unbounded_below McCormick.
Proof. exact mccormick_unbounded. Qed.
Print Assumptions C78_mccormick.
Theorem C78_eggholder : unbounded_below eggholder.
Proof. exact eggholder_unbounded. Qed.
Print Assumptions C78_eggholder.
(** on three lines through (0,-47) the eggholder function is a function of one variable *)
Theorem C78_eggholder_lines : forall t, eggholder [t; -47] = Ok (- t * sin (sqrt (Rabs t))) /\ eggholder [0; t - 47] = Ok (- t * sin (sqrt (Rabs t))) /\ eggholder [t; t - 47] = Ok (- t * sin (sqrt (Rabs (3 / 2 * t)))).
Proof. exact eggholder_lines. Qed.
Print Assumptions C78_eggholder_lines.
Theorem C78_holder_table : forall factor shift, factor <> 0 -> unbounded_below (Holder_table factor shift).
Proof. exact holder_unbounded. Qed.
Print Assumptions C78_holder_table.
Theorem C78_cross_in_tray : unbounded_below cross_in_tray.
Proof. exact cross_unbounded. Qed.
Print Assumptions C78_cross_in_tray.
(** C78. The second documented minimum of McCormick is not even as low as the first one. *)
Theorem C78_mccormick_second : exists w1 w2, McCormick [- 54719 / 100000; - 154719 / 100000] = Ok w1 /\ McCormick [154719 / 100000; 54719 / 100000] = Ok w2 /\ w1 < - 1 /\ 1 < w2.
Proof. exact mccormick_listed. Qed.
Print Assumptions C78_mccormick_second.

(** C79. Objectives ending with squeeze: as '3D' objective accepted exactly if M <> 1 and N <> 1; then pointwise. *)
Theorem C79_check_3D : forall (A B : Type) (g : list A -> B) (x : nd A) M N d nfe, shape x = [M; N; d] ->
  check_f_dims (apply_kind K3D (squeezed g)) M N true x nfe = if (M =? 1)%nat || (N =? 1)%nat then Err ValueError else Ok (map (fun n => n + N)%nat nfe).
Proof. exact @squeezed_check_3D. Qed.
Print Assumptions C79_check_3D.
Theorem C79_pointwise_3D : forall (A B : Type) (g : list A -> B) (x : nd A) M N d, shape x = [M; N; d] -> M <> 1%nat -> N <> 1%nat -> pointwise (apply_kind K3D (squeezed g)) g x M N d.
Proof. exact @squeezed_3D_pointwise. Qed.
Print Assumptions C79_pointwise_3D.
(** C79. As '1D' objective (the default) they satisfy the requirement of C57 for all shapes. *)
Theorem C79_1D : forall (A B : Type) (g : list A -> B) d, objective_1D (squeezed g) d g.
Proof. exact @squeezed_1D. Qed.
Print Assumptions C79_1D.
Example C79_example : let g := fun p : list nat => list_sum p in
  check_f_dims (apply_kind K3D (squeezed g)) 1 3 true (mknd [1; 3; 2]%nat (fun i => list_sum i)) [0%nat] = Err ValueError /\
  check_f_dims (apply_kind K3D (squeezed g)) 2 3 true (mknd [2; 3; 2]%nat (fun i => list_sum i)) [0; 0]%nat = Ok [3; 3]%nat.
Proof. split; vm_compute; reflexivity. Qed.

(** C80. Multimodal products: non-negative, and zero exactly in the centres (or everywhere if a factor is 0) *)
Theorem C80_minima : forall V alpha z o x w, (forall u v, V u = Ok v -> 0 <= v /\ (v = 0 <-> u = repeat 0 (length u))) ->
  match z with ZArr rows => exists n, forall r, In r rows -> length r = n | _ => True end ->
  multi_init alpha z = Ok o -> multi_apply V o x = Ok w ->
  0 <= w /\ (w = 0 <-> exists j a b, nth_error (fst o) j = Some a /\ z_row (snd o) j = Ok [b] /\ (a = 0 \/ x = repeat b (length x))).
Proof. exact multi_min. Qed.
Print Assumptions C80_minima.
Example C80_minima_example : (forall u v, Rastrigin 0 0 10 u = Ok v -> 0 <= v /\ (v = 0 <-> u = repeat 0 (length u))) /\
  (forall u v, Ackley 20 (2 / 10) (2 * PI) None u = Ok v -> 0 <= v /\ (v = 0 <-> u = repeat 0 (length u))) /\
  exists o, multi_init (Some [1; 2]) ZNone = Ok o /\ exists w, Rastrigin_multimodal o [1; 2] = Ok w.
Proof. exact (conj rastrigin_V (conj ackley_V (ex_intro _ _ (conj eq_refl (ex_intro _ _ eq_refl))))). Qed.
(** C80. Without z the evaluation never raises. *)
Theorem C80_default : forall V alpha o, (forall u, (0 < length u)%nat -> exists v, V u = Ok v) -> multi_init alpha ZNone = Ok o ->
  forall x, (0 < length x)%nat -> exists w, multi_apply V o x = Ok w.
Proof. exact multi_default. Qed.
Print Assumptions C80_default.
(** C80. Without z the value is the product over the scales of the Rastrigin (A = 10) and Ackley (A = 20, b = 0.2, c = 2 pi)
    functions of the scaled point. *)
Theorem C80_rastrigin : forall alpha o x, multi_init alpha ZNone = Ok o ->
  Rastrigin_multimodal o x = Ok (fold_right Rmult 1 (map (fun a => rastrigin_factor a x) (scales alpha))).
Proof. exact rastrigin_multi. Qed.
Print Assumptions C80_rastrigin.
Theorem C80_ackley : forall alpha o x, multi_init alpha ZNone = Ok o -> (0 < length x)%nat ->
  Ackley_multimodal o x = Ok (fold_right Rmult 1 (map (fun a => ackley_factor a x) (scales alpha))).
Proof. exact ackley_multi. Qed.
Print Assumptions C80_ackley.
Example C80_values_example : exists o, multi_init (Some [1; 2]) ZNone = Ok o /\
  Rastrigin_multimodal o [1; 0] = Ok 4 /\ Ackley_multimodal o [0; 0] = Ok 0.
Proof. exact multi_example. Qed.
(** C80, full statement refuted: the objective cannot be constructed and evaluated with given centres: an array z with
    two or more entries raises in the constructor, a list z raises in every evaluation. *)
Theorem C80_array_refuted : forall alpha rows, (2 <= length (concat rows))%nat -> multi_init alpha (ZArr rows) = Err ValueError.
Proof. exact multi_array_raises. Qed.
Print Assumptions C80_array_refuted.
Theorem C80_list_refuted : forall V alpha rows, rows <> [] -> exists o, multi_init alpha (ZList rows) = Ok o /\ forall x, multi_apply V o x = Err TypeError.
Proof. exact multi_list_raises. Qed.
Print Assumptions C80_list_refuted.
