(** * Proofs on losses and accuracy *)
From Coq Require Import String List Arith Bool Reals Lia Lra Permutation.
From Verif Require Import Scalar Np NpFacts RFacts PdynOk Dispatch DispatchFacts Torch TorchFacts TorchEval TorchEvalSpec TolFacts.
Import ListNotations.
Open Scope nat_scope.
Open Scope list_scope.

Lemma lookup_In : forall C (t : list (string * C)) p c, lookup t p = Some c -> In (p, c) t.
Proof.
  induction t as [|[q c'] t IH]; intros p c H; [discriminate|]. cbn in H. destruct (String.eqb_spec q p); [injection H as <-; subst; left; auto|right; auto].
Qed.
Lemma lookup_None : forall C (t : list (string * C)) p, lookup t p = None <-> ~ In p (map fst t).
Proof.
  induction t as [|[q c] t IH]; intros p; cbn; [tauto|]. destruct (String.eqb_spec q p); [split; [discriminate|tauto]|]. rewrite IH. tauto.
Qed.
Lemma lookup_self : forall C (t : list (string * C)), NoDup (map fst t) -> forall i p c, nth_error t i = Some (p, c) -> lookup t p = Some c.
Proof.
  induction t as [|[q c'] t IH]; intros ND i p c H; [destruct i; discriminate|]. inversion ND; subst. destruct i; cbn in H.
  - injection H as <- <-. cbn. rewrite String.eqb_refl. auto.
  - cbn. destruct (String.eqb_spec q p); [|eauto]. subst. exfalso. apply H2. apply nth_error_In in H. apply (in_map fst) in H. auto.
Qed.

Section Losses.
  Context {A X Y : Type}.
  Variable forward : module A -> X -> res Y.

  Lemma call_graft : forall (model m ps : module A) names pnames, NoDup (map fst names) -> layout_of model = names -> layout_of m = names -> incl pnames (map fst names) -> map fst ps = pnames ->
    (forall p, In p pnames -> lookup ps p = lookup m p) ->
    exists g, graft_of pnames m model g /\ (forall x, functional_call forward model ps x = forward g x) /\ (incl (map fst names) pnames -> g = m).
  Proof.
    intros model m ps names pnames ND L1 L2 HI HP HL.
    assert (NF : forall u : module A, map fst (layout_of u) = map fst u) by (intros; unfold layout_of; rewrite map_map; auto).
    set (g := map (fun e => (fst e, match lookup ps (fst e) with Some t => t | None => snd e end)) model).
    assert (FG : map fst g = map fst model) by (unfold g; rewrite map_map; auto).
    assert (N1 : map fst model = map fst names) by (rewrite <- L1, NF; auto). assert (N2 : map fst m = map fst names) by (rewrite <- L2, NF; auto).
    assert (LP : forall p, In p pnames -> exists t, lookup ps p = Some t /\ lookup m p = Some t).
    { intros p Hp. rewrite (HL p Hp). destruct (lookup m p) as [t|] eqn:E; [eauto|]. apply lookup_None in E. exfalso. apply E. rewrite N2. apply HI; auto. }
    assert (GR : forall i p t, nth_error g i = Some (p, t) -> (In p pnames -> lookup m p = Some t) /\ (~ In p pnames -> nth_error model i = Some (p, t))).
    { intros i p t H. unfold g in H. rewrite nth_error_map in H. destruct (nth_error model i) as [[q u]|] eqn:E; [|discriminate]. cbn in H. injection H as <- H. split.
      - intros Hp. destruct (LP q Hp) as (t' & H1 & H2). rewrite H1 in H. congruence.
      - intros Hp. rewrite <- HP in Hp. apply lookup_None in Hp. rewrite Hp in H. congruence. }
    exists g. split; [|split; auto].
    - split; auto. intros i p t H. destruct (GR i p t H) as [H1 H2]. split; auto. intros Hp. apply lookup_In. auto.
    - intros HA. apply nth_error_ext. intros i. destruct (nth_error g i) as [[p t]|] eqn:E.
      + destruct (GR i p t E) as [H1 _]. assert (Hp : In p (map fst names)). { rewrite <- N1, <- FG. apply nth_error_In in E. apply (in_map fst) in E. auto. }
        assert (Q : nth_error (map fst m) i = Some p) by (rewrite N2, <- N1, <- FG, nth_error_map, E; auto).
        rewrite nth_error_map in Q. destruct (nth_error m i) as [[p' t']|] eqn:E2; [|discriminate]. cbn in Q. injection Q as ->.
        assert (NDm : NoDup (map fst m)) by (rewrite N2; auto). rewrite (lookup_self _ m NDm i p t' E2) in H1. specialize (H1 (HA p Hp)). congruence.
      + symmetry. apply nth_error_None in E. apply nth_error_None. rewrite <- (map_length fst), N2, <- N1, <- FG, map_length. auto.
  Qed.

  Theorem model_of_row : forall (models : list (module A)) names pnames (model : module A), same_architecture models names -> NoDup pnames -> incl pnames (map fst names) -> pnames <> [] ->
    layout_of model = names ->
    exists W pprop, flatten_parameters models pnames = Ok W /\ get_param_properties models (Some pnames) = Ok pprop /\ length W = length models /\
      forall n m w, nth_error models n = Some m -> nth_error W n = Some w -> exists g, graft_of pnames m model g /\
        (forall x, eval_model forward x model w pprop = forward g x) /\ (incl (map fst names) pnames -> g = m).
  Proof.
    intros models names pnames model HS ND HI HN HL. destruct (torch_flatten_spec models names pnames HS ND HI HN) as (W & pprop & H1 & H2 & H3 & H4 & H5).
    exists W, pprop. split; auto. split; auto. split; auto. intros n m w Hm Hw. destruct (H5 n m w Hm Hw) as ((l & E1 & E2 & E3) & _).
    destruct HS as (HD & _ & HF). rewrite Forall_forall in HF. destruct (HF m (nth_error_In _ _ Hm)) as [Lm _].
    destruct (call_graft model m l names pnames HD HL Lm HI E2 E3) as (g & G1 & G2 & G3). exists g. split; auto. split; auto.
    intros x. unfold eval_model. rewrite E1. cbn [bind]. apply G2.
  Qed.

  Theorem losses_of_models : forall T L (loss : Y -> T -> res L) (models : list (module A)) names pnames (model : module A) x y, same_architecture models names -> NoDup pnames ->
    incl pnames (map fst names) -> incl (map fst names) pnames -> pnames <> [] -> layout_of model = names ->
    exists W pprop, flatten_parameters models pnames = Ok W /\ get_param_properties models (Some pnames) = Ok pprop /\
      eval_models forward x model W pprop = mapM (fun m => forward m x) models /\
      eval_losses forward x y loss model W pprop = mapM (fun m => o <- forward m x ;; loss o y) models.
  Proof.
    intros T L loss models names pnames model x y HS ND HI HA HN HL. destruct (model_of_row models names pnames model HS ND HI HN HL) as (W & pprop & H1 & H2 & H3 & H4).
    exists W, pprop. split; auto. split; auto.
    assert (Q : forall n m w, nth_error models n = Some m -> nth_error W n = Some w -> eval_model forward x model w pprop = forward m x).
    { intros n m w Hm Hw. destruct (H4 n m w Hm Hw) as (g & _ & G2 & G3). rewrite G2, (G3 HA). auto. }
    clear - H3 Q. unfold eval_models, eval_losses, eval_loss. revert W H3 Q. induction models as [|m models IH]; intros [|w W] H3 Q; try discriminate; [split; reflexivity|].
    destruct (IH W) as [I1 I2]; [cbn in H3; lia|intros n; apply (Q (S n))|].
    pose proof (Q 0 m w eq_refl eq_refl) as Q0. cbn [mapM]. rewrite Q0, I1, I2. auto.
  Qed.
End Losses.

(** ** argmax *)
Lemma argmax_from_spec : forall l v bi (pre : list R), (bi < length pre) -> nth bi pre 0%R = v -> (forall j, j < length pre -> (nth j pre 0 <= v)%R) -> (forall j, j < bi -> (nth j pre 0 < v)%R) ->
  first_max (pre ++ l) (argmax_from (Fin v) bi (length pre) (map Fin l)).
Proof.
  induction l as [|a l IH]; intros v bi pre Hb Hv H1 H2.
  - cbn. rewrite app_nil_r. subst v. split; auto.
  - cbn [map argmax_from above fltb kltb KOps_R]. replace (pre ++ a :: l) with ((pre ++ [a]) ++ l) by (rewrite <- app_assoc; auto).
    replace (S (length pre)) with (length (pre ++ [a])) by (rewrite app_length; cbn; lia).
    destruct (Rltb v a) eqn:E.
    + apply Rltb_true in E. apply IH.
      * rewrite app_length; cbn; lia.
      * rewrite app_nth2, Nat.sub_diag by lia. auto.
      * intros j Hj. rewrite app_length in Hj. cbn in Hj. destruct (Nat.eq_dec j (length pre)) as [->|N]; [rewrite app_nth2, Nat.sub_diag by lia; cbn; lra|].
        rewrite app_nth1 by lia. specialize (H1 j ltac:(lia)). lra.
      * intros j Hj. rewrite app_nth1 by lia. specialize (H1 j ltac:(lia)). lra.
    + apply Rltb_false in E. apply IH.
      * rewrite app_length; cbn; lia.
      * rewrite app_nth1 by lia. auto.
      * intros j Hj. rewrite app_length in Hj. cbn in Hj. destruct (Nat.eq_dec j (length pre)) as [->|N]; [rewrite app_nth2, Nat.sub_diag by lia; cbn; lra|].
        rewrite app_nth1 by lia. apply H1; lia.
      * intros j Hj. rewrite app_nth1 by lia. auto.
Qed.
Theorem argmax_first_max : forall l : list R, l <> [] -> exists i, argmax_row (map Fin l) = Ok i /\ first_max l i.
Proof.
  intros [|v l] H; [congruence|]. cbn [map argmax_row]. eexists. split; [reflexivity|].
  apply (argmax_from_spec l v 0 [v]); cbn; auto. intros [|j] Hj; [lra|lia]. intros j Hj; lia.
Qed.
Lemma first_max_unique : forall l i j, first_max l i -> first_max l j -> i = j.
Proof.
  intros l i j (A1 & A2 & A3) (B1 & B2 & B3). destruct (lt_eq_lt_dec i j) as [[L|L]|L]; auto; exfalso.
  - specialize (B3 i L). specialize (A2 j B1). lra.
  - specialize (A3 j L). specialize (B2 i A1). lra.
Qed.
Theorem argmax_nan : forall l, In NaN l -> exists i, argmax_row l = Ok i /\ nth_error l i = Some NaN.
Proof.
  assert (K : forall l v bi (pre : list (fl R)), nth_error pre bi = Some v -> v = NaN \/ In NaN l -> nth_error (pre ++ l) (argmax_from v bi (length pre) l) = Some NaN).
  { induction l as [|a l IH]; intros v bi pre Hb H; [destruct H as [->|[]]; cbn; rewrite app_nil_r; auto|]. cbn [argmax_from].
    replace (pre ++ a :: l) with ((pre ++ [a]) ++ l) by (rewrite <- app_assoc; auto). replace (S (length pre)) with (length (pre ++ [a])) by (rewrite app_length; cbn; lia).
    destruct (above a v) eqn:E.
    - apply IH. { rewrite nth_error_app2, Nat.sub_diag by lia. auto. } destruct H as [->|[->|H]]; auto; discriminate.
    - apply IH. { rewrite nth_error_app1; auto. apply nth_error_lt in Hb. auto. } destruct H as [->|[->|H]]; auto. left. destruct v; auto; discriminate. }
  intros [|v l] H; [destruct H|]. cbn [argmax_row]. eexists. split; [reflexivity|]. apply (K l v 0 [v]); auto.
Qed.

(** ** accuracy *)
Section Acc.
  Context {A I : Type}.
  Variables (forward : module A -> list I -> res (list (list (fl R)))) (model ps : module A) (w : list A) (pprop : list (string * prop)) (h : I -> list R).
  Hypotheses (HP : eval_params w pprop = Ok ps) (HF : forall xs, functional_call forward model ps xs = Ok (map (fun x => map Fin (h x)) xs)) (HH : forall x, h x <> []).

  Lemma batch_tally : forall (x : list I) (y : list nat), length x = length y -> exists p k, mapM argmax_row (map (fun x => map Fin (h x)) x) = Ok p /\ count_equal p y = Ok k /\
    tally (fun q => first_max (h (fst q)) (snd q)) (combine x y) k.
  Proof.
    induction x as [|a x IH]; intros [|b y] HL; try discriminate.
    - exists [], 0. split; auto. split; auto. constructor.
    - destruct (IH y ltac:(cbn in HL; lia)) as (p & k & H1 & H2 & H3). destruct (argmax_first_max (h a) (HH a)) as (i & E & F).
      assert (Lp : length p = length y). { apply mapM_length in H1. rewrite map_length in H1. cbn in HL. lia. }
      unfold count_equal in H2. rewrite bpairs_same in H2 by auto. cbn [bind] in H2. injection H2 as H2.
      exists (i :: p). cbn [map mapM]. rewrite E, H1. cbn [bind]. unfold count_equal. rewrite bpairs_same by (cbn; lia). cbn [bind combine filter fst snd].
      destruct (Nat.eqb_spec i b) as [->|N].
      + exists (S k). split; auto. split; [cbn; rewrite H2; auto|]. constructor; auto.
      + exists k. split; auto. split; [cbn; rewrite H2; auto|]. constructor; auto. cbn. intros C. apply N. eapply first_max_unique; eauto.
  Qed.
  Lemma tally_app : forall B (P : B -> Prop) l1 l2 k1 k2, tally P l1 k1 -> tally P l2 k2 -> tally P (l1 ++ l2) (k1 + k2).
  Proof. intros B P l1 l2 k1 k2 H1 H2. induction H1; cbn; auto; constructor; auto. Qed.
  Lemma tally_le : forall B (P : B -> Prop) l k, tally P l k -> k <= length l.
  Proof. intros. induction H; cbn; lia. Qed.
  Lemma tally_unique : forall B (P : B -> Prop) l k k', tally P l k -> tally P l k' -> k = k'.
  Proof. intros B P l k k' H. revert k'. induction H; intros k' H'; inversion H'; subst; auto; try tauto. Qed.
  Lemma tally_perm : forall B (P : B -> Prop) l l', Permutation l l' -> forall k, tally P l k -> tally P l' k.
  Proof.
    intros B P l l' H. induction H; intros k H'; auto.
    - inversion H'; subst; constructor; auto.
    - inversion H' as [| a1 l1 k1 P1 T1 E1 | a1 l1 k1 P1 T1 E1]; subst; inversion T1; subst; repeat (first [apply ta_yes; [assumption|] | apply ta_no; [assumption|]]); auto.
  Qed.
  Lemma tally_all : forall B (P : B -> Prop) l, tally P l (length l) <-> Forall P l.
  Proof.
    intros B P l. induction l as [|a l IH]; cbn; [split; constructor|]. split; intros H.
    - inversion H; subst. constructor; auto; apply IH; auto. apply tally_le in H4. lia.
    - inversion H; subst. constructor; auto. apply IH; auto.
  Qed.
  Lemma samples_length : forall loader : list (list I * list nat), labelled loader -> length (samples loader) = fold_right (fun q s => length (fst q) + s) 0 loader.
  Proof.
    intros loader H. induction H as [|[x y] l Hq _ IH]; auto. cbn [samples flat_map fst snd fold_right] in *. fold (samples l). rewrite app_length, combine_length, IH. cbn in Hq. lia.
  Qed.

  Lemma acc_loop_tally : forall loader r n, labelled loader -> exists k, tally (fun q => first_max (h (fst q)) (snd q)) (samples loader) k /\
    acc_loop forward model w pprop loader r n = Ok (r + k, n + length (samples loader)).
  Proof.
    induction loader as [|[x y] loader IH]; intros r n HL.
    - exists 0. split; [constructor|]. cbn. do 2 f_equal; lia.
    - inversion HL as [|q l Hq Hl]; subst. cbn in Hq. destruct (batch_tally x y Hq) as (p & k & H1 & H2 & H3).
      cbn [acc_loop]. unfold eval_model. rewrite HP. cbn [bind]. rewrite HF. cbn [bind]. rewrite H1. cbn [bind]. rewrite H2. cbn [bind].
      destruct (IH (r + k) (n + length x) Hl) as (k' & T & E). exists (k + k'). cbn [samples flat_map fst snd]. fold (samples loader).
      split; [apply tally_app; auto|]. rewrite E, app_length, combine_length, <- Hq, Nat.min_id. do 2 f_equal; lia.
  Qed.

  Theorem accuracy : forall loader, labelled loader -> samples loader <> [] -> exists k, tally (fun q => first_max (h (fst q)) (snd q)) (samples loader) k /\
    eval_acc forward model w pprop loader = Ok (Fin (INR k / INR (length (samples loader)))%R).
  Proof.
    intros loader HL HN. destruct (acc_loop_tally loader 0 0 HL) as (k & T & E). exists k. split; auto. unfold eval_acc. rewrite E. cbn [bind fst snd].
    destruct loader as [|q loader]; [exfalso; apply HN; auto|]. f_equal. apply fdiv_real. apply not_0_INR. destruct (samples (q :: loader)); [congruence|discriminate].
  Qed.
  Theorem accuracy_range : forall loader v, labelled loader -> samples loader <> [] -> eval_acc forward model w pprop loader = Ok (Fin v) ->
    (0 <= v <= 1)%R /\ (v = 1%R <-> forall x y, In (x, y) (samples loader) -> first_max (h x) y).
  Proof.
    intros loader v HL HN HE. destruct (accuracy loader HL HN) as (k & T & E). rewrite E in HE. injection HE as <-.
    assert (P0 : (0 < INR (length (samples loader)))%R) by (apply lt_0_INR; destruct (samples loader); [congruence|cbn; lia]).
    pose proof (tally_le _ _ _ _ T) as LE. apply le_INR in LE. pose proof (pos_INR k). split.
    - split; [apply Rmult_le_pos; [auto|left; apply Rinv_0_lt_compat; auto]|]. apply (Rmult_le_reg_r (INR (length (samples loader)))); auto. unfold Rdiv. rewrite Rmult_assoc, Rinv_l; lra.
    - split; intros H0.
      + assert (KE : INR k = INR (length (samples loader))). { apply (Rmult_eq_reg_r (/ INR (length (samples loader)))); [|apply Rinv_neq_0_compat; lra]. rewrite Rinv_r by lra. exact H0. }
        apply INR_eq in KE. rewrite KE in T. apply tally_all in T. rewrite Forall_forall in T. intros x y Hin. exact (T (x, y) Hin).
      + assert (TA : tally (fun q => first_max (h (fst q)) (snd q)) (samples loader) (length (samples loader))). { apply tally_all. apply Forall_forall. intros [x y] Hq. cbn. auto. }
        rewrite (tally_unique _ _ _ _ _ T TA). field. lra.
  Qed.
  Theorem accuracy_batches : forall l1 l2, labelled l1 -> labelled l2 -> samples l1 <> [] -> Permutation (samples l1) (samples l2) ->
    eval_acc forward model w pprop l1 = eval_acc forward model w pprop l2.
  Proof.
    intros l1 l2 H1 H2 HN HP12. assert (HN2 : samples l2 <> []). { intros C. rewrite C in HP12. apply Permutation_sym, Permutation_nil in HP12. auto. }
    destruct (accuracy l1 H1 HN) as (k1 & T1 & E1). destruct (accuracy l2 H2 HN2) as (k2 & T2 & E2). rewrite E1, E2.
    rewrite (tally_unique _ _ _ _ _ (tally_perm _ _ _ _ HP12 _ T1) T2), (Permutation_length HP12). auto.
  Qed.
  Theorem accuracy_empty : eval_acc forward model w pprop [] = Err ZeroDivision.
  Proof. reflexivity. Qed.
End Acc.
