(** * Live plotting over the reals: the arrows end in the consensus point *)
From Coq Require Import String List Arith Bool Reals Lia Lra.
From Verif Require Import Scalar Np NpFacts State Pdyn PdynFacts PdynStep PdynOk Exec RVec RVecFacts Consensus ConsSpec ConsFacts Cbo CboSpec CboFacts SimSpec MemSymSpec LivePlot LiveFacts.
Import ListNotations.

Definition negate (v : vec) : vec := map fopp v.

Lemma arrow_tip : forall p q : list R, length p = length q -> map2 fadd (floats p) (negate (map2 fsub (floats p) (floats q))) = floats q.
Proof.
  induction p as [|a p IH]; intros [|b q] L; try discriminate; auto. cbn. f_equal; [unfold fadd, fsub, fopp; cbn; f_equal; lra|]. apply IH. auto.
Qed.

Section Live.
  Variables (f : vec -> fl R) (k : noise_model) (pp : vec -> vec) (b : nat) (partial cat : bool) (ks : list (crit R vec)) (save : bool).
  Let c : cfg R vec := cbo_cfg f k pp NoCorr b partial cat ks save.

  Theorem live_tips : forall s log (o : orc vec) s' d num_run xr a, exec c s log -> perms_valid o s -> step c o s = Ok s' -> finite_obj d f ->
    length (s_active s) = s_M s -> nth_error (s_x s) num_run = Some xr -> (forall v, In v xr -> real_point d v) -> nth_error (s_alpha s) num_run = Some [Fin a] ->
    exists q tails vs, live_update negate num_run true true s' = Ok (mklive xr (Some [floats q]) (Some (tails, vs))) /\
      length tails = (if partial then b else s_N s) /\ length vs = length tails /\ (forall p, In p tails -> In p xr) /\ (b = s_N s -> tails = xr) /\
      (forall p v, In (p, v) (combine tails vs) -> map2 fadd p v = floats q) /\
      exists X, length X = b /\ (forall x, In x X -> In (floats x) xr) /\ (b = s_N s -> map floats X = xr) /\ q = gibbs_point a (map f (map floats X)) d X.
  Proof.
    intros s log o s' d m xr a E P HS Hf HA Hx Hr Ha. pose proof (exec_wf _ _ _ E) as W.
    assert (HM : (m < s_M s)%nat). { rewrite <- (proj1 (w_x _ _ W)). eapply nth_error_lt; eauto. }
    assert (Hk : nth_error (s_active s) m = Some m).
    { rewrite (incr_full (s_active s) (s_M s)); auto; try apply W. rewrite nth_error_seq. destruct (Nat.ltb_spec m (s_M s)); auto. lia. }
    destruct (live_frame negate c s log o s' m m xr xr (Fin a) E P) as (xb & cp & tails & F1 & F2 & F3 & F4 & F5 & F6 & F7 & F8 & F9); auto.
    { intros ? ? ?. reflexivity. }
    assert (HX : exists X, xb = map floats X /\ forall x, In x X -> length x = d).
    { clear - F1 Hr. induction xb as [|v xb IH]; [exists []; split; auto; intros x []|].
      destruct IH as (X & -> & HX). { intros w Hw. apply F1. right. auto. }
      destruct (Hr v (F1 v (or_introl eq_refl))) as (p & -> & Hp). exists (p :: X). split; auto. intros x [<-|Hx]; auto. }
    destruct HX as (X & -> & HX). assert (LX : length X = b) by (rewrite map_length in F2; exact F2).
    assert (Hb : (1 <= b)%nat) by apply (w_bs _ _ W).
    assert (HAd : admissible a (map f (map floats X))). { apply (finite_admissible f d X a Hf); [lia|]. intros p Hp. apply HX; auto. }
    assert (HE : ensemble (length (map f (map floats X))) d X). { split; [rewrite !map_length; auto|]. intros p Hp. apply HX; auto. }
    change (c_ccrow c) with cc_default in F3. change (c_f c) with f in F3. rewrite (consensus_gibbs a _ d X HAd HE) in F3. injection F3 as <-.
    set (q := gibbs_point a (map f (map floats X)) d X) in *. assert (Lq : length q = d) by apply gibbs_point_length.
    exists q, tails. eexists. split; [exact F9|]. split; [exact F5|]. split; [apply map_length|]. split; [exact F4|].
    split. { intros B. apply F6. exact B. }
    split.
    - intros p v Hpv. assert (Q : forall g l, In (p, v) (combine l (map g l)) -> In p l /\ v = g p).
      { intros g. induction l as [|u l IH]; intros H; [destruct H|]. destruct H as [H|H]; [injection H as <- <-; cbn; auto|]. destruct (IH H). cbn; auto. }
      destruct (Q _ _ Hpv) as (Hp0 & ->). destruct (Hr _ (F4 _ Hp0)) as (p1 & -> & Lp). apply arrow_tip. congruence.
    - exists X. split; [auto|]. split; [intros x Hx0; apply F1; apply in_map; auto|]. split; [|reflexivity]. intros B. apply F6. exact B.
  Qed.
End Live.
