(** * Repeated calls of one resampling object *)
From Coq Require Import List Arith Bool Lia.
From Verif Require Import Scalar ScalarFacts Np NpFacts State Pdyn PdynFacts PdynStep PdynOk Resampling ResampSpec ResampFacts StagFacts ResampApply.
Import ListNotations.

Section RsmCalls.
  Context {K V : Type} {O : KOps K} {OL : KOrd K}.
  Notation F := (fl K).
  Notation st := (st K V).
  Notation cfg := (cfg K V).

  (** One resampling object called on the states [ss], one after the other; [z k] is the noise of
      call [k].  The result lists the object and the state after each call. *)
  Fixpoint rsm_calls (c : cfg) (norm1 : V -> F) (vzero : V -> V) (amp : F) (z : nat -> nat -> nat -> V)
      (r : rsm K V) (ss : list st) : res (list (rsm K V * st)) :=
    match ss with
    | [] => Ok []
    | s :: ss' =>
        p <- resampling_call c norm1 vzero amp false (z 0) r s ;;
        outs <- rsm_calls c norm1 vzero amp (fun k => z (S k)) (fst p) ss' ;;
        Ok (p :: outs)
    end.

  (** how often run [m] was resampled so far *)
  Definition resamplings (r : rsm K V) (m : nat) : nat :=
    match r_num r with Some l => nth m l 0 | None => 0 end.

  (** the object which call [k] finds *)
  Definition before (r : rsm K V) (outs : list (rsm K V * st)) (k : nat) : rsm K V :=
    match k with 0 => r | S k' => match nth_error outs k' with Some p => fst p | None => r end end.

  Lemma lur_call_bound : forall t (s : st) o l' idx M, lur_call t s o = Ok (l', idx) ->
    s_M s = M -> length (s_be s) = M ->
    length (l_best (check_energy_wait M o)) = M -> length (l_wait (check_energy_wait M o)) = M ->
    length (l_best l') = M /\ length (l_wait l') = M /\ forall m, In m idx -> m < M.
  Proof.
    intros t s o l' idx M H EM Lb L1 L2. unfold lur_call in H. rewrite EM in H.
    set (l := check_energy_wait M o) in *. rewrite Lb, L1, Nat.eqb_refl in H. injection H as <- <-.
    assert (Lu : length (map2 (fun b e : F => fltb e b) (l_best l) (s_be s)) = M) by (rewrite map2_length; lia).
    assert (Lr : length (repeat 0 (length (map S (l_wait l)))) = M) by (rewrite repeat_length, map_length; lia).
    assert (Lw : length (map S (l_wait l)) = M) by (rewrite map_length; lia).
    cbn [l_best l_wait]. split; [rewrite select_length; lia |]. split; [rewrite map_length, select_length; lia |].
    intros m Hm. apply np_where_spec in Hm. apply nth_error_lt in Hm. rewrite map_length, select_length in Hm; lia.
  Qed.

  Lemma cstag_call_bound : forall (c : cfg) norm1 vzero p t (s : st) o o' idx, cstag_call c norm1 vzero p t s o = Ok (o', idx) ->
    forall m, In m idx -> m < s_M s.
  Proof.
    intros c norm1 vzero p t s o o' idx H m Hm. unfold cstag_call in H.
    destruct (s_cons s) as [cpt|]; [| discriminate].
    apply bind_ok in H. destruct H as (wt0 & Hw & H). apply put1_length in Hw. rewrite repeat_length in Hw.
    apply bind_ok in H. destruct H as (q & Hq & H). apply bind_ok in H. destruct H as (old' & _ & H).
    injection H as _ <-. apply np_where_spec in Hm. apply nth_error_lt in Hm. rewrite map_length in Hm.
    assert (L : length (snd q) <= s_M s); [| lia].
    destruct (cs_old o) as [old|].
    - apply bind_ok in Hq. destruct Hq as (oa & _ & Hq). apply bind_ok in Hq. destruct Hq as (df & _ & Hq).
      apply bind_ok in Hq. destruct Hq as (col & _ & Hq). apply bind_ok in Hq. destruct Hq as (diffs & _ & Hq).
      injection Hq as <-. cbn [snd]. rewrite map2_length. lia.
    - injection Hq as <-. cbn [snd]. rewrite map_length. lia.
  Qed.

  (** the two rules of one object, call by call *)
  Lemma rsm_calls_char : forall (c : cfg) norm1 vzero amp M N t p th (ss : list st) z l q num b Ls Ss,
    Forall (fun s => s_M s = M /\ s_N s = N /\ length (s_be s) = M /\ rect M N (s_x s)) ss ->
    length (l_best (check_energy_wait M l)) = M -> length (l_wait (check_energy_wait M l)) = M ->
    match num with Some n => length n = M | None => True end ->
    loss_calls t ss l = Ok Ls -> stag_calls c norm1 vzero p th ss q = Ok Ss ->
    exists outs, rsm_calls c norm1 vzero amp z (mkrsm [RLoss t l; RCons p th q] num b) ss = Ok outs /\
      length outs = length ss /\
      forall k s r s' lo so, nth_error ss k = Some s -> nth_error outs k = Some (r, s') ->
        nth_error Ls k = Some lo -> nth_error Ss k = Some so ->
        forall m, m < M ->
          (In m lo \/ In m so ->
             resamplings r m = S (resamplings (before (mkrsm [RLoss t l; RCons p th q] num b) outs k) m) /\
             exists j row, nth_error (s_x s) m = Some row /\
               nth_error (s_x s') m = Some (mapi (fun n v => c_vadd c v (c_vscale c amp (z k j n))) row)) /\
          (~ (In m lo \/ In m so) ->
             resamplings r m = resamplings (before (mkrsm [RLoss t l; RCons p th q] num b) outs k) m /\
             nth_error (s_x s') m = nth_error (s_x s) m).
  Proof.
    intros c norm1 vzero amp M N t p th. induction ss as [|s ss IH]; intros z l q num b Ls Ss Hss L1 L2 Ln HL HS.
    - exists []. split; auto. split; auto. intros k s r s' lo so E. destruct k; discriminate.
    - inversion Hss as [|? ? (EM & EN & Lb & RX) Hss']; subst. cbn [loss_calls] in HL. cbn [stag_calls] in HS.
      apply bind_ok in HL. destruct HL as ((l' & lo0) & Hl & HL). apply bind_ok in HL. destruct HL as (Ls' & HL & EL).
      apply bind_ok in HS. destruct HS as ((q' & so0) & Hq & HS). apply bind_ok in HS. destruct HS as (Ss' & HS & ES).
      injection EL as <-. injection ES as <-. cbn [fst snd] in *.
      destruct (lur_call_bound _ _ _ _ _ _ Hl eq_refl Lb L1 L2) as (L1' & L2' & Bl).
      pose proof (cstag_call_bound _ _ _ _ _ _ _ _ _ Hq) as Bs.
      destruct (resampling_spec c norm1 vzero amp (z 0) (mkrsm [RLoss t l; RCons p th q] num b) s
        [RLoss t (Some l'); RCons p th q'] [lo0; so0] (s_M s) (s_N s) (match num with Some n => n | None => repeat 0 (s_M s) end))
        as (num' & x' & Hr & Rx' & Ln' & Hx); auto.
      { destruct num; auto. apply repeat_length. }
      { cbn. rewrite Hl. cbn. rewrite Hq. reflexivity. }
      { discriminate. }
      { intros i m [<- | [<- | []]]; auto. }
      cbn [r_bestc] in Hr.
      destruct (IH (fun k => z (S k)) (Some l') q' (Some num') b Ls' Ss' Hss') as (outs & Ho & Lo & H); auto.
      eexists. split.
      { cbn [rsm_calls]. rewrite Hr. cbn [bind fst]. rewrite Ho. cbn [bind]. reflexivity. }
      split; [cbn; lia |].
      intros k s1 r s' lo so E1 E2 E3 E4 m Lm. destruct k as [|k].
      + cbn in E1, E2, E3, E4. injection E1 as <-. injection E2 as <- <-. injection E3 as <-. injection E4 as <-.
        destruct (nth_error_lt_Some _ (s_x s) m) as [row Er]; [destruct RX; lia |].
        destruct (nth_error_lt_Some _ (match num with Some n => n | None => repeat 0 (s_M s) end) m) as [n0 En].
        { destruct num; [lia | rewrite repeat_length; lia]. }
        destruct (Hx m row n0 Er En) as [Hno Hyes].
        assert (E0 : resamplings (mkrsm [RLoss t l; RCons p th q] num b) m = n0).
        { unfold resamplings. cbn [r_num]. destruct num as [n|]; [apply nth_error_nth with (d := 0) in En; auto |].
          rewrite nth_error_repeat in En. destruct (m <? s_M s); congruence. }
        cbn [before]. rewrite E0. unfold resamplings. cbn [r_num].
        assert (EqI : (exists i, In i [lo0; so0] /\ In m i) <-> In m lo0 \/ In m so0).
        { split; [intros (i & [<- | [<- | []]] & Hi); auto |]. intros [Hi | Hi]; [exists lo0 | exists so0]; cbn; auto. }
        assert (Sx : s_x (set_x x' s) = x') by reflexivity. rewrite Sx.
        split; intros Hm.
        * destruct (Hyes (proj2 EqI Hm)) as (A & j & B). split; [apply nth_error_nth; auto |]. exists j, row. auto.
        * destruct (Hno (fun h => Hm (proj1 EqI h))) as (A & B). split; [apply nth_error_nth; auto | congruence].
      + cbn in E1, E2, E3, E4. specialize (H k s1 r s' lo so E1 E2 E3 E4 m Lm).
        destruct k as [|k]; [exact H |]. cbn [before] in *.
        destruct (nth_error_lt_Some _ outs k) as [a Ea]; [apply (nth_error_lt _ outs (S k)) in E2; lia |].
        cbn [nth_error]. rewrite Ea in *. exact H.
  Qed.

  (** one object with both rules: the runs resampled by call [k] *)
  Lemma rsm_both : forall (c : cfg) norm1 vzero amp z b M N t p th (ss : list st),
    (forall a : K, kadd k0 a = a) -> 1 <= t ->
    Forall (one_point_per_run M) ss ->
    Forall (fun s => s_N s = N /\ length (s_be s) = M /\ rect M N (s_x s)) ss ->
    let r0 := mkrsm [RLoss t None; RCons p th (mkcstag None [])] None b in
    exists outs, rsm_calls c norm1 vzero amp z r0 ss = Ok outs /\ length outs = length ss /\
      forall k s r s' m, nth_error ss k = Some s -> nth_error outs k = Some (r, s') -> m < M ->
        let due := (exists n, 1 <= n /\ stale (seen ss m) k (n * t)) \/
                   (1 <= k /\ In m (s_active s) /\ all_small c norm1 vzero th ss m k (if p =? 0 then None else Some p)) in
        (due -> resamplings r m = S (resamplings (before r0 outs k) m) /\
           exists j row, nth_error (s_x s) m = Some row /\
             nth_error (s_x s') m = Some (mapi (fun n v => c_vadd c v (c_vscale c amp (z k j n))) row)) /\
        (~ due -> resamplings r m = resamplings (before r0 outs k) m /\ nth_error (s_x s') m = nth_error (s_x s) m).
  Proof.
    intros c norm1 vzero amp z b M N t p th ss K0 Ht H1 H2 r0.
    destruct (loss_spec t M ss Ht) as (Ls & HL & LL & SL).
    { apply Forall_forall. intros s Hs. rewrite Forall_forall in H1, H2. destruct (H1 s Hs), (H2 s Hs) as (_ & ? & _). auto. }
    destruct (stag_spec c norm1 vzero p th M ss K0 H1) as (Ss & HS & LS & SS).
    destruct (rsm_calls_char c norm1 vzero amp M N t p th ss z None (mkcstag None []) None b Ls Ss) as (outs & Ho & Lo & H);
      auto; try (cbn; apply repeat_length).
    { apply Forall_forall. intros s Hs. rewrite Forall_forall in H1, H2. destruct (H1 s Hs), (H2 s Hs) as (? & ? & ?). auto. }
    exists outs. split; auto. split; auto. intros k s r s' m Es Eo Lm due.
    assert (Lk : k < length ss) by (apply nth_error_lt in Es; auto).
    destruct (nth_error_lt_Some _ Ls k ltac:(lia)) as [lo El]. destruct (nth_error_lt_Some _ Ss k ltac:(lia)) as [so Eso].
    assert (Ed : due <-> In m lo \/ In m so).
    { unfold due. rewrite (SL k lo m El Lm), (SS k s so m Es Eso Lm). tauto. }
    destruct (H k s r s' lo so Es Eo El Eso m Lm) as [A B]. split; intros D.
    - apply A, Ed, D.
    - apply B. rewrite <- Ed. exact D.
  Qed.
End RsmCalls.
