(** * A step of DriftConstrainedCBO does not fail if the linear systems at its particles can be solved *)
From Coq Require Import String List Arith Bool Permutation Lia.
From Verif Require Import Scalar ScalarFacts Np NpFacts State Pdyn PdynFacts PdynStep PdynRun PdynOk Exec BcFacts BestFacts
  Memory MemFacts MemFacts2 RegSched Variant VarSpec VarFacts VarMove RegVar HeaviFacts AdamFacts VarExact HyperTotal VarTotal.
Import ListNotations.
Open Scope nat_scope.
Open Scope list_scope.

Section Total.
  Context {K V : Type} {O : KOps K}.
  Notation F := (fl K).
  Notation st := (st K V).
  Notation cfg := (cfg K V).
  Notation orc := (orc V).

  Lemma mapM_total_in : forall A B (f : A -> res B) l, (forall a, In a l -> exists b, f a = Ok b) -> exists r, mapM f l = Ok r.
  Proof.
    intros A B f l Hf. induction l as [|a l IH]; [eexists; reflexivity|]. destruct (Hf a (or_introl eq_refl)) as (b & Hb). destruct IH as (r & IH). { intros x Hx. apply Hf. right. auto. }
    cbn [mapM]. rewrite Hb. cbn [bind]. rewrite IH. cbn [bind]. eauto.
  Qed.
  Lemma solve_all_total_at : forall (g : V -> V -> res V) M N X Y, rect M N X -> rect M N Y -> (forall row x, In row X -> In x row -> forall y, exists w, g x y = Ok w) ->
    exists Z, solve_all g X Y = Ok Z /\ rect M N Z.
  Proof.
    intros g M N X Y RX RY Hg. unfold solve_all. rewrite (bc2_same _ _ _ _ M N) by auto. cbn [bind].
    destruct (mapM_total_in _ _ (mapM (fun p => g (fst p) (snd p))) (map2 (map2 pair) X Y)) as (Z & HZ).
    { intros row Hr. destruct (In_nth_error _ _ Hr) as (i & Hi). rewrite map2_nth in Hi. destruct (nth_error X i) as [xr|] eqn:Ex; [|discriminate]. destruct (nth_error Y i) as [yr|]; [|discriminate].
      injection Hi as <-. apply mapM_total_in. intros [x y] Hp. destruct (In_nth_error _ _ Hp) as (n & Hn). rewrite map2_nth in Hn. destruct (nth_error xr n) as [x'|] eqn:En; [|discriminate].
      destruct (nth_error yr n); [|discriminate]. injection Hn as -> ->. apply (Hg xr); eapply nth_error_In; eauto. }
    exists Z. split; auto. eapply mapM_rect; [exact HZ|]. apply rect_map2; auto.
  Qed.
  Theorem dc_total_at : forall G eps (c : cfg) n s u log o, one_consensus_point c ->
    (forall g row x, G = Some g -> In row (s_x s) -> In x row -> forall y, exists w, g_solve g (fdiv (s_dt s) eps) x y = Ok w) ->
    vexec (dc_inner G eps) (fun _ => tt) c n (s, u) log -> perms_valid o s -> length (s_active s) = s_M s ->
    exists s', vstep (dc_inner G eps) c o (s, u) = Ok (s', u).
  Proof.
    intros G eps c n s u log o C1 HG H P0 HA. pose proof (perms_valid_ok _ _ P0) as P.
    destruct (vexec_inv _ _ _ _ (dc_regular G eps) attr_unit c n s u log I H) as [W _].
    destruct (pre_cons_full c o s W P) as (s0 & sc & ci & pi & cps & CO).
    pose proof (cons_rect _ _ _ _ _ _ _ _ W P C1 CO) as Rc. rewrite HA in Rc. pose proof (w_x _ _ W) as Rx.
    destruct (drift_col (c_vsub c) _ _ _ _ Rx Rc (w_N _ _ W)) as (d & Ed & Rd).
    assert (HI : exists x', dc_inner G eps c o s0 u = Ok (set_x x' (set_drift (Some d) sc), u) /\ rect (s_M s) (s_N s) x').
    { unfold dc_inner. rewrite (co_cons _ _ _ _ _ _ _ _ CO). cbn [bind]. rewrite (the_cons_ok _ _ (co_cp _ _ _ _ _ _ _ _ CO)). cbn [bind].
      rewrite (co_x _ _ _ _ _ _ _ _ CO), Ed. cbn [bind]. set (noise := amapi _ d). assert (Rn : rect (s_M s) (s_N s) noise) by (apply rect_amapi; auto).
      destruct G as [g|].
      - rewrite (bc2_same _ _ _ _ (s_M s) (s_N s)) by (apply rect_map; auto). cbn [bind].
        match goal with |- context [bc2 _ ?a noise] => set (a' := a) end. assert (Ra : rect (s_M s) (s_N s) a') by (apply rect_map2; apply rect_map; auto).
        rewrite (bc2_same _ _ _ _ (s_M s) (s_N s)) by auto. cbn [bind].
        destruct (solve_all_total_at (g_solve g (fdiv (s_dt sc) eps)) (s_M s) (s_N s) (s_x s) (map2 (map2 (c_vadd c)) a' noise) Rx (rect_map2 _ _ _ _ _ _ _ _ Ra Rn)) as (w & Ew & Rw).
        { intros row x H1 H2 y. rewrite (co_dt _ _ _ _ _ _ _ _ CO). apply (HG g row x eq_refl); auto. }
        rewrite Ew. cbn [bind]. rewrite (iop2_rect _ _ _ _ _ _ _ Rx Rw). cbn [bind]. eexists. split; [reflexivity|]. apply rect_map2; auto.
      - rewrite (bc2_same _ _ _ _ (s_M s) (s_N s)) by (auto; apply rect_map; auto). cbn [bind]. exists (s_x sc). split.
        { destruct sc; reflexivity. } rewrite (co_x _ _ _ _ _ _ _ _ CO). auto. }
    destruct HI as (x' & HI & Rx').
    exact (vstep_from_inner _ _ _ _ _ _ _ _ _ _ _ _ _ _ W P CO HI Rx').
  Qed.

End Total.
