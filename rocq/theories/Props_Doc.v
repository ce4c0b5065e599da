(** * C125: the objectives and their documented formulas *)
From Coq Require Import List Arith Reals.
From Verif Require Import Scalar Np Objectives DocSpec DocFacts.
Import ListNotations.
Open Scope R_scope.

(** C125. These classes compute the documented formulas. *)
Theorem C125_formulas : computes three_hump_camel doc_three_hump_camel /\ computes McCormick doc_McCormick /\ (forall a b, computes (Rosenbrock a b) (doc_Rosenbrock a b)) /\
  computes Bukin6 doc_Bukin6 /\ computes Easom doc_Easom /\ computes drop_wave doc_drop_wave /\ computes eggholder doc_eggholder /\ (forall m x, Michalewicz m x = Ok (doc_Michalewicz m x)).
Proof. exact (conj camel_doc (conj mccormick_doc (conj rosenbrock_doc (conj bukin_doc (conj easom_doc (conj drop_doc (conj egg_doc micha_doc))))))). Qed.
Print Assumptions C125_formulas.
(** Those with a factor or a shift compute the documented formula at the transformed point. *)
Theorem C125_scaled : (forall k x y, Himmelblau k [x; y] = Ok (doc_Himmelblau (k * x) (k * y))) /\ (forall k s x y, Holder_table k s [x; y] = Ok (doc_Holder_table ((x - s) * k) ((y - s) * k))) /\
  (forall al r phi, 0 <= al -> 0 <= r -> snowflake al [r * cos phi; r * sin phi] = Ok (doc_snowflake (al * r) phi)).
Proof. exact (conj himmelblau_doc (conj holder_doc snow_doc)). Qed.
Print Assumptions C125_scaled.
(** snowflake is not the documented function for the default alpha = 0.5: 0 instead of 0.8 at (0,2). *)
Theorem C125_snowflake_refuted : snowflake (1 / 2) [0; 2] = Ok 0 /\ doc_snowflake 2 (PI / 2) = 0.8.
Proof. exact snow_default_refuted. Qed.
Print Assumptions C125_snowflake_refuted.

(** Ackley computes the documented formula for A = 20, and for no other A at no point: the documentation keeps the 20. *)
Theorem C125_ackley : forall b c, computes (Ackley 20 b c None) (doc_Ackley 20 b c).
Proof. exact ackley_doc20. Qed.
Print Assumptions C125_ackley.
Theorem C125_ackley_refuted : forall A b c x y, A <> 20 -> Ackley A b c None [x; y] <> Ok (doc_Ackley A b c x y).
Proof. exact ackley_doc_other. Qed.
Print Assumptions C125_ackley_refuted.

(** The computed Rastrigin function lacks the documented factor 1/n: above its minimum c it is n times the documented one. *)
Theorem C125_rastrigin : forall b c x, x <> [] -> exists w, Rastrigin b c 10 x = Ok w /\ w - c = INR (length x) * (doc_Rastrigin b c x - c).
Proof. exact rastrigin_doc. Qed.
Print Assumptions C125_rastrigin.
Theorem C125_rastrigin_refuted : forall b c x, (2 <= length x)%nat -> (exists v, In v x /\ v <> b) -> Rastrigin b c 10 x <> Ok (doc_Rastrigin b c x).
Proof. exact rastrigin_doc_refuted. Qed.
Print Assumptions C125_rastrigin_refuted.
Example C125_rastrigin_refuted_example : (2 <= length [1; 0])%nat /\ exists v, In v [1; 0] /\ v <> 0.
Proof. exact (conj (le_n 2) (ex_intro _ 1 (conj (or_introl eq_refl) R1_neq_R0))). Qed.
(** The formula documented as the original Rastrigin function is Himmelblau's: 170 at the documented minimum (0,0), and 0 at (3,2) where the code returns 13. *)
Theorem C125_rastrigin_original_refuted : doc_Rastrigin_original 0 0 = 170 /\ doc_Rastrigin_original 3 2 = 0 /\ forall w, Rastrigin 0 0 10 [3; 2] = Ok w -> w = 13.
Proof. exact rastrigin_original_refuted. Qed.
Print Assumptions C125_rastrigin_original_refuted.

(** cross_in_tray: the documented formula has the first + 1 inside the absolute value and one more outside; it agrees with the code only where the product is -1/2. *)
Theorem C125_cross_in_tray : forall x y, cross_in_tray [x; y] = Ok (doc_cross_in_tray x y) <-> sin x * sin y * exp (Rabs (100 - sqrt (x ^ 2 + y ^ 2) / PI)) = - (1 / 2).
Proof. exact tray_doc. Qed.
Print Assumptions C125_cross_in_tray.
Theorem C125_cross_in_tray_refuted : cross_in_tray [0; 0] = Ok (- (1 / 10000)) /\ doc_cross_in_tray 0 0 < - (1 / 10000).
Proof. exact tray_refuted. Qed.
Print Assumptions C125_cross_in_tray_refuted.
