(** * Order facts for scalars *)
From Coq Require Import ZArith Bool List Reals Lia Lra.
From Verif Require Import Scalar.
Import ListNotations.

Section Ord.
  Context {K : Type} {O : KOps K} {OL : KOrd K}.

  Lemma fltb_irrefl : forall a : fl K, fltb a a = false.
  Proof. destruct a; cbn; auto. apply kltb_irrefl. Qed.

  Lemma fltb_trans : forall a b c : fl K, fltb a b = true -> fltb b c = true -> fltb a c = true.
  Proof. destruct a, b, c; cbn; intros; try congruence. eapply kltb_trans; eauto. Qed.

  Lemma fltb_asym : forall a b : fl K, fltb a b = true -> fltb b a = false.
  Proof.
    intros. destruct (fltb b a) eqn:E; auto.
    pose proof (fltb_trans _ _ _ H E) as H1. rewrite fltb_irrefl in H1. discriminate.
  Qed.

  Lemma fleb_spec : forall a b : fl K, fleb a b = true <-> is_nan a = false /\ is_nan b = false /\ fltb b a = false.
  Proof.
    intros. destruct a, b; cbn; try (split; [discriminate | intuition discriminate]);
      rewrite ?negb_true_iff; intuition.
  Qed.

  Lemma fleb_refl : forall a : fl K, is_nan a = false -> fleb a a = true.
  Proof. intros. apply fleb_spec. rewrite fltb_irrefl. auto. Qed.

  Lemma fltb_nan : forall a b : fl K, fltb a b = true -> is_nan a = false /\ is_nan b = false.
  Proof. destruct a, b; cbn; intros; try discriminate; auto. Qed.

  Lemma fltb_fleb : forall a b : fl K, fltb a b = true -> fleb a b = true.
  Proof. intros. apply fleb_spec. destruct (fltb_nan _ _ H). repeat split; auto. apply fltb_asym; auto. Qed.

  Lemma fltb_false_fleb : forall a b : fl K, is_nan a = false -> is_nan b = false -> fltb a b = false -> fleb b a = true.
  Proof. intros. apply fleb_spec. auto. Qed.

  Lemma fltb_total : forall a b : fl K, is_nan a = false -> is_nan b = false ->
    fltb a b = false -> fltb b a = false -> a = b.
  Proof. destruct a, b; cbn; intros; try discriminate; auto. f_equal. apply kltb_total; auto. Qed.

  Lemma fltb_fleb_trans : forall a b c : fl K, fltb a b = true -> fleb b c = true -> fltb a c = true.
  Proof.
    intros. apply fleb_spec in H0. destruct H0 as (Hb & Hc & H0).
    destruct (fltb b c) eqn:E. { eapply fltb_trans; eauto. }
    rewrite <- (fltb_total b c); auto.
  Qed.

  Lemma fleb_fltb_trans : forall a b c : fl K, fleb a b = true -> fltb b c = true -> fltb a c = true.
  Proof.
    intros. apply fleb_spec in H. destruct H as (Ha & Hb & H).
    destruct (fltb a b) eqn:E. { eapply fltb_trans; eauto. }
    rewrite (fltb_total a b); auto.
  Qed.

  Lemma fleb_trans : forall a b c : fl K, fleb a b = true -> fleb b c = true -> fleb a c = true.
  Proof.
    intros. destruct (fltb a b) eqn:E.
    - apply fltb_fleb. eapply fltb_fleb_trans; eauto.
    - apply fleb_spec in H. destruct H as (Ha & Hb & H). rewrite (fltb_total a b); auto.
  Qed.

  Lemma fleb_antisym : forall a b : fl K, fleb a b = true -> fleb b a = true -> a = b.
  Proof.
    intros. apply fleb_spec in H. apply fleb_spec in H0. apply fltb_total; intuition.
  Qed.

  Lemma fleb_PInf : forall a : fl K, is_nan a = false -> fleb a PInf = true.
  Proof. destruct a; cbn; auto; discriminate. Qed.

  Lemma fleb_PInf_l : forall a : fl K, fleb PInf a = true -> a = PInf.
  Proof. destruct a; cbn; auto; discriminate. Qed.

  Lemma fleb_not_lt : forall a b : fl K, fleb a b = true -> fltb b a = false.
  Proof. intros. apply fleb_spec in H. intuition. Qed.
End Ord.
