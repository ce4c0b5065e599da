(** * Which shapes broadcast *)
From Coq Require Import List Arith Bool Lia.
From Verif Require Import Scalar Np NpFacts PdynFacts.
Import ListNotations.
Open Scope nat_scope.
Open Scope list_scope.

Definition compat (a b : nat) : Prop := a = b \/ a = 1 \/ b = 1.
Definition bdim (a b : nat) : nat := if a =? 1 then b else a.

Lemma compat_dec : forall a b, {compat a b} + {~ compat a b}.
Proof.
  intros. unfold compat. destruct (Nat.eq_dec a b); [left; auto|]. destruct (Nat.eq_dec a 1); [left; auto|].
  destruct (Nat.eq_dec b 1); [left; auto|]. right. lia.
Qed.

Lemma bpairs_compat : forall A B (l1 : list A) (l2 : list B), compat (length l1) (length l2) ->
  exists r, bpairs l1 l2 = Ok r /\ length r = bdim (length l1) (length l2) /\
    (forall k p, nth_error r k = Some p -> In (fst p) l1 /\ In (snd p) l2).
Proof.
  intros A B l1 l2 H. unfold bpairs, bdim. destruct (Nat.eqb_spec (length l1) (length l2)) as [E|E].
  - eexists. split; [reflexivity|]. split.
    + rewrite combine_length, <- E, Nat.min_id. destruct (Nat.eqb_spec (length l1) 1); lia.
    + intros k [a b] Hk. apply nth_error_In in Hk. split; [eapply in_combine_l; eauto|eapply in_combine_r; eauto].
  - destruct l1 as [|a [|a' l1]].
    + destruct H as [H|[H|H]]; try (cbn in *; lia). destruct l2 as [|b [|]]; try (cbn in *; discriminate).
      eexists. split; [reflexivity|]. split; [reflexivity|]. intros [|k] p Hk; discriminate.
    + eexists. split; [reflexivity|]. rewrite map_length. split; [reflexivity|].
      intros k p Hk. rewrite nth_error_map in Hk. destruct (nth_error l2 k) eqn:E2; inversion Hk; subst; cbn.
      split; auto. eapply nth_error_In; eauto.
    + destruct H as [H|[H|H]]; try (cbn in *; lia). destruct l2 as [|b [|]]; try (cbn in *; discriminate).
      eexists. split; [reflexivity|]. rewrite map_length. split; [reflexivity|].
      intros k p Hk. rewrite nth_error_map in Hk. destruct (nth_error _ k) eqn:E2; inversion Hk; subst; cbn [fst snd].
      split; [eapply nth_error_In; eauto|cbn; auto].
Qed.

Lemma bpairs_incompat : forall A B (l1 : list A) (l2 : list B), ~ compat (length l1) (length l2) ->
  bpairs l1 l2 = Err ShapeError.
Proof.
  intros A B l1 l2 H. unfold bpairs. unfold compat in H. destruct (Nat.eqb_spec (length l1) (length l2)); [lia|].
  destruct l1 as [|a [|a' l1]]; destruct l2 as [|b [|b' l2]]; auto; cbn in H; lia.
Qed.

Lemma rect_in : forall A M N (X : arr A) r, rect M N X -> In r X -> length r = N.
Proof. intros A M N X r [_ H] Hr. apply In_nth_error in Hr. destruct Hr as [k Hk]. eauto. Qed.

Lemma mapM_err_first : forall A B (f : A -> res B) a l e, f a = Err e -> mapM f (a :: l) = Err e.
Proof. intros. cbn. rewrite H. auto. Qed.

Lemma bc2_compat : forall A B C (f : A -> B -> C) X Y M1 N1 M2 N2, rect M1 N1 X -> rect M2 N2 Y ->
  compat M1 M2 -> compat N1 N2 ->
  exists Z, bc2 f X Y = Ok Z /\ rect (bdim M1 M2) (bdim N1 N2) Z.
Proof.
  intros A B C f X Y M1 N1 M2 N2 HX HY HM HN. unfold bc2.
  destruct (bpairs_compat _ _ X Y) as (rows & E & L & Hin). { rewrite (proj1 HX), (proj1 HY). auto. }
  rewrite E. cbn [bind]. rewrite (proj1 HX), (proj1 HY) in L.
  assert (Hrow : forall p, In p rows -> exists cells, bpairs (fst p) (snd p) = Ok cells /\ length cells = bdim N1 N2).
  { intros p Hp. apply In_nth_error in Hp. destruct Hp as [k Hk]. destruct (Hin _ _ Hk) as [H1 H2].
    destruct (bpairs_compat _ _ (fst p) (snd p)) as (r & E1 & E2 & _).
    - rewrite (rect_in _ _ _ _ _ HX H1), (rect_in _ _ _ _ _ HY H2). auto.
    - exists r. split; auto. rewrite E2, (rect_in _ _ _ _ _ HX H1), (rect_in _ _ _ _ _ HY H2). auto. }
  destruct (mapM_ok _ _ (fun p : list A * list B => cells <- bpairs (fst p) (snd p) ;; Ok (map (fun q => f (fst q) (snd q)) cells)) rows) as [Z HZ].
  { intros p Hp. destruct (Hrow p Hp) as (cells & E1 & _). rewrite E1. cbn. eauto. }
  exists Z. split; auto. split. { rewrite (mapM_length _ _ _ _ _ HZ). auto. }
  intros k row Hk. assert (Hlt : k < length rows). { rewrite <- (mapM_length _ _ _ _ _ HZ). eapply nth_error_lt; eauto. }
  destruct (nth_error_lt_Some _ _ _ Hlt) as [p Hp]. destruct (mapM_nth _ _ _ _ _ _ _ HZ Hp) as (z & Hz & Ez).
  rewrite Hk in Ez. inversion Ez; subst z. destruct (Hrow p) as (cells & E1 & E2). { eapply nth_error_In; eauto. }
  rewrite E1 in Hz. cbn in Hz. inversion Hz. rewrite map_length. auto.
Qed.

Lemma bc2_incompat_rows : forall A B C (f : A -> B -> C) X Y, ~ compat (length X) (length Y) -> bc2 f X Y = Err ShapeError.
Proof. intros. unfold bc2. rewrite bpairs_incompat; auto. Qed.

Lemma bc2_incompat_cells : forall A B C (f : A -> B -> C) X Y M1 N1 M2 N2, rect M1 N1 X -> rect M2 N2 Y ->
  compat M1 M2 -> 1 <= M1 -> 1 <= M2 -> ~ compat N1 N2 -> bc2 f X Y = Err ShapeError.
Proof.
  intros A B C f X Y M1 N1 M2 N2 HX HY HM H1 H2 HN. unfold bc2.
  destruct (bpairs_compat _ _ X Y) as (rows & E & L & Hin). { rewrite (proj1 HX), (proj1 HY). auto. }
  rewrite E. cbn [bind]. rewrite (proj1 HX), (proj1 HY) in L.
  destruct rows as [|p rows]. { cbn in L. unfold bdim in L. destruct (M1 =? 1); lia. }
  apply mapM_err_first. destruct (Hin 0 p eq_refl) as [I1 I2].
  rewrite bpairs_incompat; auto. rewrite (rect_in _ _ _ _ _ HX I1), (rect_in _ _ _ _ _ HY I2). auto.
Qed.

Lemma iop2_incompat_rows : forall A B (f : A -> B -> A) X Y, length Y <> length X -> length Y <> 1 -> iop2 f X Y = Err ShapeError.
Proof.
  intros. unfold iop2, bto. destruct (Nat.eqb_spec (length Y) (length X)); [lia|].
  destruct Y as [|y [|]]; auto. cbn in *. lia.
Qed.

Lemma iop2_incompat_cells : forall A B (f : A -> B -> A) X Y M N1 N2, rect M N1 X -> rect M N2 Y -> 1 <= M ->
  N2 <> N1 -> N2 <> 1 -> iop2 f X Y = Err ShapeError.
Proof.
  intros A B f X Y M N1 N2 HX HY HM H1 H2. unfold iop2. rewrite bto_eq by (rewrite (proj1 HX), (proj1 HY); auto).
  cbn [bind]. destruct X as [|x X]; [destruct HX as [HX _]; cbn in HX; lia|].
  destruct Y as [|y Y]; [destruct HY as [HY _]; cbn in HY; lia|].
  cbn [combine]. apply mapM_err_first. cbn [fst snd].
  assert (L1 : length x = N1) by (apply (proj2 HX 0); auto). assert (L2 : length y = N2) by (apply (proj2 HY 0); auto).
  unfold bto. destruct (Nat.eqb_spec (length y) (length x)); [lia|]. destruct y as [|? [|]]; auto. cbn in *. lia.
Qed.

Lemma rect_map : forall A B (f : A -> B) M N (X : arr A), rect M N X -> rect M N (map (map f) X).
Proof.
  intros A B f M N X [H1 H2]. split. { rewrite map_length; auto. }
  intros k row Hk. rewrite nth_error_map in Hk. destruct (nth_error X k) eqn:E; inversion Hk. rewrite map_length. eauto.
Qed.

Lemma rect_mapi : forall A B (f : nat -> nat -> A -> B) M N (X : arr A), rect M N X ->
  rect M N (mapi (fun k row => mapi (f k) row) X).
Proof.
  intros A B f M N X [H1 H2]. split. { rewrite mapi_length; auto. }
  intros k row Hk. rewrite mapi_nth in Hk. destruct (nth_error X k) eqn:E; inversion Hk. rewrite mapi_length. eauto.
Qed.
