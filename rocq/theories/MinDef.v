(** * The benchmark functions have a value in every point of their domain *)
From Coq Require Import List Reals Lra Lia Arith.
From Verif Require Import Scalar Np Objectives MinSpec MinFacts MinFacts2 MinFacts4.
Import ListNotations.
Open Scope R_scope.

Ltac two := let q := fresh in let H := fresh in intros q H; destruct (two_points _ H) as (? & ? & ->); eexists; cbn; reflexivity.
Theorem defined_2 : defined_on 2 three_hump_camel /\ defined_on 2 McCormick /\ (forall a b, defined_on 2 (Rosenbrock a b)) /\ (forall k, defined_on 2 (Himmelblau k)) /\
  defined_on 2 Easom /\ defined_on 2 drop_wave /\ defined_on 2 Bukin6 /\ (forall al, defined_on 2 (snowflake al)) /\ defined_on 2 cross_in_tray /\ defined_on 2 eggholder /\
  (forall a b, defined_on 2 (Holder_table a b)) /\ (forall a b, defined_on 2 (Unimodal a b)) /\ (forall a b c d, defined_on 2 (Bimodal a b c d)) /\ (forall a b c, defined_on 2 (Banana a b c)).
Proof. repeat split; intros; two. Qed.
Theorem defined_d : forall d, (forall al, defined_on d (Quadratic al)) /\ (forall b c A, defined_on d (Rastrigin b c A)) /\ defined_on d p_4th_order /\ (forall m, defined_on d (Michalewicz m)) /\
  (forall a, defined_on d (accelerated_sinus a)) /\ ((0 < d)%nat -> defined_on d nd_sinus) /\
  (forall A b c m, (0 < d)%nat -> (forall l, m = Some l -> length l = d \/ length l = 1%nat) -> defined_on d (Ackley A b c m)).
Proof.
  intros d. repeat split; intros; intros q Hq; try (eexists; reflexivity).
  - unfold nd_sinus. destruct q; [cbn in Hq; lia|]. eexists; reflexivity.
  - unfold Ackley. destruct m as [l|].
    + destruct (bminus_ok q l) as (u & E & Hu & _). { destruct (H0 l eq_refl); lia. } rewrite E. cbn [bind]. destruct q; [cbn in Hq; lia|]. eexists; reflexivity.
    + cbn. destruct q; [cbn in Hq; lia|]. eexists; reflexivity.
Qed.
