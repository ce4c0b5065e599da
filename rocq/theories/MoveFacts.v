(** * How one step of CBO moves the particles of one run *)
From Coq Require Import String List Arith Bool Permutation Lia.
From Verif Require Import Scalar Np NpFacts State Pdyn PdynFacts PdynStep PdynRun PdynOk Exec RunFacts.
Import ListNotations.
Open Scope nat_scope.
Open Scope list_scope.

Section Move.
  Context {K V : Type} {O : KOps K}.
  Notation F := (fl K).
  Notation st := (st K V).
  Notation cfg := (cfg K V).
  Notation orc := (orc V).

  (** new position of a particle, before post-processing *)
  Definition moved (c : cfg) (s : st) (cp v z : V) : V :=
    c_vadd c v (cbo_update c (c_vsub c v cp) (s_lamda s) (s_dt s) (s_sigma s) (c_noise c (s_dt s) (c_vsub c v cp) z)).

  Lemma row_at_fields : forall (s : st) m r, row_at s m = Some r ->
    nth_error (s_x s) m = Some (r_x r) /\ nth_error (s_alpha s) m = Some (r_a r) /\ nth_error (s_energy s) m = Some (r_e r).
  Proof.
    intros s m r H. unfold row_at in H.
    destruct (nth_error (s_x s) m) eqn:E1; try discriminate. destruct (nth_error (s_energy s) m) eqn:E2; try discriminate.
    destruct (nth_error (s_alpha s) m) eqn:E3; try discriminate. destruct (nth_error (s_be s) m); try discriminate.
    destruct (nth_error (s_bp s) m); try discriminate. destruct (nth_error (s_nfe s) m); try discriminate.
    destruct (nth_error (s_udiff s) m); try discriminate. destruct (nth_error (s_fmin s) m); try discriminate.
    inversion H. cbn. auto.
  Qed.

  Lemma run_post_x : forall (c : cfg) xo r r', run_post c xo r = Ok r' -> r_x r' = map (c_pp c) (r_x r).
  Proof.
    intros c xo r r' H. unfold run_post in H. apply bind_ok in H. destruct H as (am & _ & H).
    apply bind_ok in H. destruct H as (p & _ & H). apply bind_ok in H. destruct H as (e & _ & H). inversion H. auto.
  Qed.

  Lemma takeM_In : forall A (l : list A) idx r v, takeM l idx = Ok r -> In v r -> In v l.
  Proof.
    intros A l idx r v H Hv. apply In_nth_error in Hv. destruct Hv as (k & Hk).
    destruct (nth_error idx k) as [i|] eqn:Ei.
    - rewrite (takeM_nth _ _ _ _ _ _ H Ei) in Hk. eapply nth_error_In; eauto.
    - apply nth_error_None in Ei. apply nth_error_lt in Hk. rewrite (takeM_length _ _ _ _ H) in Hk. lia.
  Qed.

  Lemma rowop_one : forall A B C (f : A -> B -> C) x y, rowop f x [y] = map (fun a => f a y) x.
  Proof. intros. destruct x as [|a [|]]; reflexivity. Qed.

  Theorem step_positions : forall (c : cfg) s log (o : orc) s' k m xr a,
    exec c s log -> perms_valid o s -> one_consensus_point c -> c_corr c = NoCorr -> step c o s = Ok s' ->
    nth_error (s_active s) k = Some m -> nth_error (s_x s) m = Some xr -> nth_error (s_alpha s) m = Some [a] ->
    exists xb cp xr', takeM xr (run_sel c o s m) = Ok xb /\ xb <> [] /\ (forall v, In v xb -> In v xr) /\
      c_ccrow c (map (c_f c) xb) xb a = [cp] /\ nth_error (s_x s') m = Some xr' /\ length xr' = length xr /\
      (forall n v, nth_error xr n = Some v -> exists v', nth_error xr' n = Some (c_pp c v') /\
         (v' = v \/ exists i, v' = moved c s cp v (o_z o k i))) /\
      (c_bsize c = s_N s -> xb = xr /\ xr' = mapi (fun n v => c_pp c (moved c s cp v (o_z o k n))) xr).
  Proof.
    intros c s log o s' k m xr a E P CS NC HS Hk Hx Ha.
    pose proof (exec_wf _ _ _ E) as W. pose proof (perms_valid_ok _ _ P) as P'.
    assert (CC : cc_shape c (s_N s)) by (left; exact CS).
    destruct (step_char c o s W P' CC NC) as (s2 & HS2 & W' & _ & _ & _ & (cps & ds & _ & _ & _ & _ & HR) & _).
    rewrite HS in HS2. injection HS2 as <-.
    assert (Hm : m < s_M s) by (apply W; eapply nth_error_In; eauto).
    destruct (row_at_Some c s m W Hm) as (r & Hr & _).
    destruct (HR k m r Hk Hr) as (r1 & cpr & dr & r' & HM & _ & _ & HP & Hr').
    destruct (row_at_fields _ _ _ Hr) as (F1 & F2 & F3). destruct (row_at_fields _ _ _ Hr') as (G1 & _ & _).
    rewrite Hx in F1. injection F1 as F1. rewrite Ha in F2. injection F2 as F2.
    assert (Lxr : length xr = s_N s) by (eapply (proj2 (w_x _ _ W)); eauto).
    unfold run_move in HM. rewrite <- F2, <- F1 in HM.
    apply bind_ok in HM. destruct HM as (xb & HB & HM). apply bind_ok in HM. destruct HM as (er & _ & HM).
    apply bind_ok in HM. destruct HM as (xp & HXP & HM). cbv zeta in HM. apply bind_ok in HM. destruct HM as (xr1 & HPUT & HM).
    assert (EX : r_x r1 = xr1) by (inversion HM; reflexivity). clear HM.
    pose proof (run_post_x _ _ _ _ HP) as HX'. rewrite EX in HX'.
    assert (L1 := CS (map (c_f c) xb) xb a). destruct (c_ccrow c (map (c_f c) xb) xb a) as [|cp [|]] eqn:EC; try discriminate.
    rewrite rowop_one in HPUT.
    assert (EU : forall l, map2 (c_vadd c) l (mapi (fun n v => cbo_update c v (s_lamda s) (s_dt s) (s_sigma s) (c_noise c (s_dt s) v (o_z o k n))) (map (fun v => c_vsub c v cp) l)) =
       mapi (fun n v => moved c s cp v (o_z o k n)) l).
    { intros l. apply nth_error_ext. intros n. rewrite map2_nth, !mapi_nth, nth_error_map. destruct (nth_error l n); reflexivity. }
    rewrite EU in HPUT.
    exists xb, cp, (r_x r'). split; auto. split.
    { intros ->. pose proof (takeM_length _ _ _ _ HB) as L. rewrite (run_sel_length c o s m W P' Hm) in L. destruct W. cbn in L. lia. }
    split. { intros v. apply (takeM_In _ _ _ _ _ HB). }
    split; auto. split; auto. split. { rewrite HX', map_length. apply (put1_length _ _ _ _ _ HPUT). }
    split.
    - intros n v Hn. rewrite HX'.
      assert (LL : length (mapi (fun n v => moved c s cp v (o_z o k n)) xp) = length (run_selp c o s m)).
      { rewrite mapi_length. apply (takeM_length _ _ _ _ HXP). }
      pose proof (put1_nth _ _ _ _ _ n LL HPUT) as PN.
      rewrite nth_error_map, PN. destruct (last_index n (run_selp c o s m)) as [i|] eqn:EL.
      + apply last_index_Some in EL. pose proof (takeM_nth _ _ _ _ _ _ HXP EL) as T.
        rewrite (proj2 (Nat.ltb_lt _ _) (nth_error_lt _ _ _ _ Hn)), mapi_nth, T, Hn. cbn. eexists. split; [reflexivity|]. right. eauto.
      + rewrite Hn. cbn. exists v. auto.
    - intros Hb. assert (S1 : run_sel c o s m = seq 0 (s_N s)) by (unfold run_sel; rewrite Hb, Nat.eqb_refl; auto).
      assert (S2 : run_selp c o s m = seq 0 (s_N s)) by (unfold run_selp; rewrite Hb, Nat.eqb_refl; auto).
      rewrite S1, <- Lxr, takeM_all in HB. injection HB as <-. rewrite S2, <- Lxr, takeM_all in HXP. injection HXP as <-.
      rewrite S2, <- Lxr, put1_all in HPUT by (rewrite mapi_length; auto). injection HPUT as <-.
      split; auto. rewrite HX'. apply nth_error_ext. intros n. rewrite nth_error_map, !mapi_nth. destruct (nth_error xr n); reflexivity.
  Qed.

  Theorem step_positions_inactive : forall (c : cfg) s log (o : orc) s' m xr,
    exec c s log -> perms_valid o s -> plain c (s_N s) -> step c o s = Ok s' ->
    ~ In m (s_active s) -> nth_error (s_x s) m = Some xr -> nth_error (s_x s') m = Some (map (c_pp c) xr).
  Proof.
    intros c s log o s' m xr E P [CS NC] HS Hk Hx.
    pose proof (exec_wf _ _ _ E) as W. pose proof (perms_valid_ok _ _ P) as P'.
    assert (CC : cc_shape c (s_N s)).
    { destruct CS as [CS|[CS1 CS2]]; [left; exact CS|right; auto]. }
    destruct (step_char c o s W P' CC NC) as (s2 & HS2 & W' & _ & _ & _ & _ & HI & _).
    rewrite HS in HS2. injection HS2 as <-.
    assert (Hm : m < s_M s). { rewrite <- (proj1 (w_x _ _ W)). eapply nth_error_lt; eauto. }
    destruct (row_at_Some c s m W Hm) as (r & Hr & _). destruct (HI m r Hk Hr) as (r' & HP & Hr').
    destruct (row_at_fields _ _ _ Hr) as (F1 & _). destruct (row_at_fields _ _ _ Hr') as (G1 & _).
    rewrite Hx in F1. injection F1 as ->. rewrite G1, (run_post_x _ _ _ _ HP). auto.
  Qed.
End Move.
