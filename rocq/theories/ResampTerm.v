(** * Resampling and terminated runs *)
From Coq Require Import List Arith Bool Lia.
From Verif Require Import Scalar ScalarFacts Np NpFacts State Pdyn PdynFacts PdynStep PdynRun PdynOk Exec
  Resampling ResampSpec StagFacts ResampApply.
Import ListNotations.

Section Term.
  Context {K V : Type} {O : KOps K}.
  Notation F := (fl K).
  Notation st := (st K V).
  Notation cfg := (cfg K V).
  Notation orc := (orc V).

  Lemma frozen_udiff : forall (c : cfg) (s : st) log (o : orc) s' m row, exec c s log -> plain c (s_N s) ->
    perms_valid o s -> step c o s = Ok s' -> ~ In m (s_active s) -> nth_error (s_x s) m = Some row ->
    nth_error (s_udiff s') m = Some (c_norm c (map2 (c_vsub c) (map (c_pp c) row) row)).
  Proof.
    intros c s log o s' m row E [G1 G2] P HS Hi Hrow.
    pose proof (exec_wf _ _ _ E) as W.
    destruct (step_char c o s W (perms_valid_ok _ _ P) G1 G2) as (s1 & HS1 & W' & Fr & _ & _ & _ & Hin & _).
    assert (s1 = s') by congruence. subst s1.
    assert (Hm : m < s_M s).
    { apply nth_error_lt in Hrow. destruct W. unfold rect in *. intuition lia. }
    destruct (row_at_Some c s m W Hm) as (r & Er & _).
    destruct (Hin m r Hi Er) as (r' & Hp & Er').
    destruct (row_at_lt _ _ _ Er) as (_ & Ex & _).
    destruct (row_at_lt _ _ _ Er') as (_ & _ & _ & _ & _ & _ & _ & Eu & _).
    assert (r_x r = row) by congruence. subst row.
    unfold run_post in Hp. cbv zeta in Hp.
    apply bind_ok in Hp. destruct Hp as ([j v] & _ & Hp).
    apply bind_ok in Hp. destruct Hp as (p & _ & Hp).
    apply bind_ok in Hp. destruct Hp as (e & _ & Hp). injection Hp as <-. exact Eu.
  Qed.

  (** a terminated run is selected by ensemble_update_resampling after every step *)
  Lemma ens_selects_terminated : forall (c : cfg) (s : st) log (o : orc) s' m row thresh,
    exec c s log -> plain c (s_N s) -> perms_valid o s -> step c o s = Ok s' -> ~ In m (s_active s) ->
    nth_error (s_x s) m = Some row ->
    fltb (c_norm c (map2 (c_vsub c) (map (c_pp c) row) row)) thresh = true ->
    In m (ens_call thresh s').
  Proof.
    intros. unfold ens_call. apply np_where_spec. rewrite nth_error_map.
    erewrite frozen_udiff by eauto. cbn. f_equal. auto.
  Qed.

  (** ... and then moved *)
  Lemma ens_moves_terminated : forall (c : cfg) (s : st) log (o : orc) s' m row thresh norm1 vzero amp z b,
    exec c s log -> plain c (s_N s) -> perms_valid o s -> step c o s = Ok s' -> ~ In m (s_active s) ->
    nth_error (s_x s) m = Some row -> map (c_pp c) row = row ->
    fltb (c_norm c (map2 (c_vsub c) row row)) thresh = true ->
    ~ In m (s_active s') /\ nth_error (s_x s') m = Some row /\
    exists r s'' k, resampling_call c norm1 vzero amp false z (mkrsm [REns thresh] None b) s' = Ok (r, s'') /\
      s_active s'' = s_active s' /\
      nth_error (s_x s'') m = Some (mapi (fun j v => c_vadd c v (c_vscale c amp (z k j))) row).
  Proof.
    intros c s log o s' m row thresh norm1 vzero amp z b E G P HS Hi Hrow Hpp Hth.
    pose proof (exec_wf _ _ _ E) as W. pose proof G as [G1 G2].
    destruct (step_char c o s W (perms_valid_ok _ _ P) G1 G2) as (s1 & HS1 & W' & Fr & _ & _ & _ & Hin & _).
    assert (s1 = s') by congruence. subst s1.
    assert (EA : s_active s' = s_active s) by tauto. assert (EM : s_M s' = s_M s) by tauto.
    assert (EN : s_N s' = s_N s) by tauto.
    split; [rewrite EA; auto |].
    assert (Hx : nth_error (s_x s') m = Some row).
    { assert (Hm : m < s_M s) by (apply nth_error_lt in Hrow; destruct W; unfold rect in *; intuition lia).
      destruct (row_at_Some c s m W Hm) as (r & Er & _).
      destruct (Hin m r Hi Er) as (r' & Hp & Er').
      destruct (row_at_lt _ _ _ Er) as (_ & Ex & _). destruct (row_at_lt _ _ _ Er') as (_ & Ex' & _).
      assert (r_x r = row) by congruence. subst row.
      unfold run_post in Hp. cbv zeta in Hp.
      apply bind_ok in Hp. destruct Hp as ([j v] & _ & Hp).
      apply bind_ok in Hp. destruct Hp as (p & _ & Hp).
      apply bind_ok in Hp. destruct Hp as (e & _ & Hp). injection Hp as <-. cbn in Ex'. rewrite Hpp in Ex'. exact Ex'. }
    split; auto.
    assert (Hsel : In m (ens_call thresh s')).
    { eapply ens_selects_terminated; eauto. rewrite Hpp. auto. }
    assert (RX : rect (s_M s') (s_N s') (s_x s')) by (destruct W'; auto).
    destruct (resampling_spec c norm1 vzero amp z (mkrsm [REns thresh] None b) s' [REns thresh] [ens_call thresh s']
                (s_M s') (s_N s') (repeat 0 (s_M s')) RX eq_refl eq_refl eq_refl) as (num' & x' & Hc & R' & L' & H).
    - apply repeat_length.
    - reflexivity.
    - discriminate.
    - intros l j [<- | []] Hj. unfold ens_call in Hj. apply np_where_spec in Hj. apply nth_error_lt in Hj.
      rewrite map_length in Hj. destruct W'. lia.
    - assert (En : nth_error (repeat 0 (s_M s')) m = Some 0).
      { rewrite nth_error_repeat. assert (m < s_M s') by (apply nth_error_lt in Hx; destruct RX; lia).
        destruct (Nat.ltb_spec m (s_M s')); [auto | lia]. }
      destruct (H m row 0 Hx En) as [_ H2].
      destruct H2 as (_ & k & Hk). { exists (ens_call thresh s'). split; [left; auto | auto]. }
      eexists. eexists. exists k. split; [exact Hc |]. split; [reflexivity | exact Hk].
  Qed.

  (** ** the best consensus of a resampled run *)

  (** the consensus array has one row per active run, but is indexed by run *)
  Lemma best_consensus_raises : forall (c : cfg) (s : st) cpt idx b m, s_cons s = Some cpt ->
    In m idx -> length cpt <= m -> track_best_consensus c idx s b = Err IndexError.
  Proof.
    intros c s cpt idx b m Ec Hin Hm. unfold track_best_consensus. rewrite Ec.
    assert (E : takeM cpt idx = Err IndexError).
    { clear b Ec. revert Hin. induction idx as [|a idx IH]; intros Hin; [destruct Hin |].
      unfold takeM in *. cbn [mapM]. destruct (take1 cpt a) eqn:Ea.
      - cbn [bind]. destruct Hin as [-> | Hin].
        + apply take1_ok in Ea. apply nth_error_lt in Ea. lia.
        + rewrite IH by auto. reflexivity.
      - unfold take1 in Ea. destruct (nth_error cpt a); [discriminate |]. injection Ea as <-. reflexivity. }
    rewrite E. reflexivity.
  Qed.

  Lemma best_consensus_wrong_run : forall (c : cfg) (s : st) cpt m v k,
    s_cons s = Some cpt -> nth_error cpt m = Some [v] -> m < s_M s ->
    nth_error (s_active s) m = Some k ->
    exists be s', track_best_consensus c [m] s None = Ok (Some (cpt, be), s') /\
      nth_error be m = Some [c_f c v] /\ run_point s k v.
  Proof.
    intros c s cpt m v k Ec Ev Hm Ek. unfold track_best_consensus. rewrite Ec.
    assert (E : takeM cpt [m] = Ok [[v]]).
    { unfold takeM. cbn [mapM]. unfold take1. rewrite Ev. reflexivity. }
    rewrite E. cbn [bind]. unfold eval_f. cbn [map].
    destruct (scatter_rows F [m] (s_M s) 1 (IRuns [m]) (repeat [PInf] (s_M s)) [[c_f c v]]) as (X' & HX & RX & Hin & Hout).
    - cbn. auto.
    - constructor; [intros [] | constructor].
    - intros j [<- | []]. auto.
    - split; [apply repeat_length |]. intros j row E1. rewrite nth_error_repeat in E1.
      destruct (j <? s_M s); [| discriminate]. injection E1 as <-. auto.
    - reflexivity.
    - intros j yr E1. destruct j; cbn in E1; [injection E1 as <-; auto | destruct j; discriminate].
    - rewrite HX. cbn [bind]. eexists. eexists. split; [reflexivity |]. split.
      + destruct (Hin 0 m [PInf] [c_f c v]) as (row' & E1 & E2); auto.
        { rewrite nth_error_repeat. destruct (Nat.ltb_spec m (s_M s)); [auto | lia]. }
        cbn in E2. injection E2 as <-. auto.
      + exists m, cpt. auto.
  Qed.
End Term.
