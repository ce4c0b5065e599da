(** * Changing penalty weights: executions *)
From Coq Require Import String List Arith Bool Permutation Lia.
From Verif Require Import Scalar ScalarFacts Np NpFacts State Pdyn PdynFacts PdynStep PdynRun PdynOk Exec BcFacts StepFrame BestFacts
  Memory MemSpec MemFacts MemFacts2 MemFacts3 RegSched RegFacts Variant VarSpec VarFacts VarMove RegVar PenSpec PenFacts.
Import ListNotations.
Open Scope nat_scope.
Open Scope list_scope.

Section Run.
  Context {K V : Type} {O : KOps K}.
  Notation F := (fl K).
  Notation st := (st K V).
  Notation cfg := (cfg K V).
  Notation orc := (orc V).
  Variables (f reg : V -> F) (pow : F -> F) (solve : option (F -> V -> V -> res V)) (eps : F).
  Notation value := (penalty_value f reg pow).
  Notation inner := (reg_inner (reg_call f reg pow) solve eps).

  Definition pshape (ob : regobj K) : Prop := o_lamda ob = None \/ exists l, o_lamda ob = Some l /\ rect (length l) 1 l /\ l <> [].

  Lemma value_at : forall ob k l a v, o_lamda ob = Some l -> rect (length l) 1 l -> nth_error l k = Some [a] -> 
    value ob k v = fadd (f v) (fmul a (pow (reg v))).
  Proof.
    intros ob k l a v Hl R Hk. unfold penalty_value, weight. rewrite Hl. destruct l as [|r [|r2 l]].
    - destruct k; discriminate.
    - destruct k as [|k]; [|destruct k; discriminate]. injection Hk as ->. auto.
    - rewrite Hk. destruct r as [|? [|]]; auto.
  Qed.

  Lemma rows_ext : forall A (X Y : list A), (forall n a, nth_error X n = Some a -> nth_error Y n = Some a) -> length X = length Y -> X = Y.
  Proof.
    intros A X Y H L. apply nth_error_ext. intros n. destruct (nth_error X n) eqn:E.
    - symmetry. auto.
    - symmetry. apply nth_error_None. apply nth_error_None in E. lia.
  Qed.

  Lemma reg_call_priced : forall A b (xs : arr V) ob ob' ev, rect A b xs -> 1 <= A -> 1 <= b -> pshape ob ->
    reg_call f reg pow xs ob = Ok (ob', ev) -> length ev = A \/ length ev = 1 ->
    length ev = A /\ (forall k xb, nth_error xs k = Some xb -> nth_error ev k = Some (map (value ob k) xb)) /\ pshape ob'.
  Proof.
    intros A b xs [sc lm] ob' ev Rx HA Hb Hs H Hl.
    assert (HC : (lm = None \/ exists r, lm = Some r /\ rect A 1 r) \/ exists a, lm = Some [[a]]).
    { destruct Hs as [Hs|(l & Hs & Rl & Hne)]; cbn [o_lamda] in Hs; subst lm; auto.
      destruct (Nat.eq_dec (length l) A) as [E|E]. { left. right. exists l. rewrite <- E. auto. }
      right. unfold reg_call, broadcast_lamda in H. cbn [o_lamda] in H. apply bind_ok in H. destruct H as (lr & H1 & H).
      assert (HL : 1 <= length l) by (destruct l; cbn; [congruence|lia]).
      assert (Rp : rect A b (map (map (fun v => pow (reg v))) xs)) by (apply rect_map; auto).
      destruct (bc2_ok_inv _ _ _ _ _ _ _ (length l) 1 A b Rl Rp HL HA H1) as (CM & _ & Rlr).
      apply bind_ok in H. destruct H as (e & H2 & H). injection H as <- <-.
      assert (Rf : rect A b (map (map f) xs)) by (apply rect_map; auto).
      assert (HB : 1 <= bdim (length l) A). { unfold bdim. destruct (_ =? 1); lia. }
      destruct (bc2_ok_inv _ _ _ _ _ _ _ A b _ _ Rf Rlr HA HB H2) as (CM2 & _ & Re).
      rewrite (proj1 Re) in Hl. assert (E1 : length l = 1).
      { unfold bdim in Hl. unfold compat in CM. destruct (Nat.eqb_spec A 1), (Nat.eqb_spec (length l) 1); auto; lia. }
      destruct l as [|r [|]]; try discriminate. pose proof (proj2 Rl 0 r eq_refl) as Lr. destruct r as [|a [|]]; try discriminate. eauto. }
    destruct HC as [HC|(a & ->)].
    - destruct (reg_call_pointwise f reg pow A b xs sc lm Rx Hb HC) as (e & l' & E & Rl & H1 & H2 & Re & Hc).
      rewrite E in H. injection H as <- <-. split. { apply Re. } split.
      + intros k xb Hk. assert (HkA : k < A) by (rewrite <- (proj1 Rx); eapply nth_error_lt; eauto).
        assert (Hk2 : k < length l') by (rewrite (proj1 Rl); auto). destruct (nth_error_lt_Some _ _ _ Hk2) as [lr Elr].
        pose proof (proj2 Rl _ _ Elr) as Llr. destruct lr as [|la [|]]; try discriminate.
        assert (Hke : k < length e) by (rewrite (proj1 Re); auto). destruct (nth_error_lt_Some _ _ _ Hke) as [er Eer].
        rewrite Eer. f_equal. symmetry. apply rows_ext. 2:{ rewrite map_length, (proj2 Rx _ _ Hk), (proj2 Re _ _ Eer). auto. }
        intros n y Hn. rewrite nth_error_map in Hn. destruct (nth_error xb n) as [v|] eqn:Ev; [|discriminate]. injection Hn as <-.
        destruct (Hc k n xb v la Hk Ev Elr) as (er' & E1 & E2). rewrite Eer in E1. injection E1 as <-. rewrite E2. f_equal. symmetry.
        destruct HC as [->|(r & -> & Rr)].
        * rewrite (H2 eq_refl) in Elr. rewrite nth_repeat_Some in Elr by auto. injection Elr as <-. reflexivity.
        * rewrite (H1 r eq_refl) in Elr. eapply value_at; [reflexivity| |exact Elr]. rewrite (proj1 Rr). auto.
      + right. exists l'. split; auto. rewrite (proj1 Rl). split; auto. intros ->. destruct Rl. cbn in *. lia.
    - unfold reg_call, broadcast_lamda in H. cbn [o_lamda] in H.
      rewrite (bc2_one_l _ _ _ _ A b) in H by (auto; apply rect_map; auto). cbn [bind] in H.
      rewrite (bc2_same _ _ _ _ A b) in H by (repeat apply rect_map; auto). cbn [bind] in H. injection H as <- <-.
      split. { rewrite map2_length, !map_length, (proj1 Rx). lia. } split.
      + intros k xb Hk. rewrite map2_nth, !nth_error_map, Hk. cbn [option_map]. f_equal. rewrite !map_map. clear.
        induction xb; cbn [map map2]; auto. f_equal; auto.
      + right. exists [[a]]. split; auto. split; [|discriminate]. split; auto. intros k row E. destruct k as [|[|]]; try discriminate. injection E as <-. auto.
  Qed.

  Lemma rank_nth : forall act k m, NoDup act -> nth_error act k = Some m -> rank m act = k.
  Proof.
    induction act as [|a act IH]; intros k m ND H. { destruct k; discriminate. } inversion ND; subst. destruct k as [|k]; cbn in *.
    - injection H as ->. rewrite Nat.eqb_refl. auto.
    - destruct (Nat.eqb_spec a m) as [->|Hne]. { exfalso. apply H2. eapply nth_error_In; eauto. } f_equal. auto.
  Qed.

  Lemma cc_one : forall (c : cfg) e (xs : arr V) al cp A, one_consensus_point c -> length e = A -> length al = A -> length xs = A ->
    cc_call c e xs al = Ok cp -> rect A 1 cp.
  Proof.
    intros c e xs al cp A C1 L1 L2 L3 H. unfold cc_call in H. rewrite bpairs_same in H by congruence. cbn [bind] in H.
    rewrite bpairs_same in H by (rewrite combine_length; lia). cbn [bind] in H. split.
    - rewrite (mapM_length _ _ _ _ _ H), !combine_length. lia.
    - intros k row Hk. assert (Hk2 : k < length (combine (combine e al) xs)) by (rewrite <- (mapM_length _ _ _ _ _ H); eapply nth_error_lt; eauto).
      destruct (nth_error_lt_Some _ _ _ Hk2) as [p Ep]. destruct (mapM_nth _ _ _ _ _ _ _ H Ep) as (r & E1 & E2).
      rewrite Hk in E2. injection E2 as <-. destruct p as [[er ar] xr]. destruct ar as [|a [|]]; try discriminate.
      destruct (length er =? length xr). { injection E1 as <-. apply C1. } destruct xr as [|v [|]]; try discriminate. injection E1 as <-. apply C1.
  Qed.

  Lemma pen_step : forall (c : cfg) o s ob s' ob', one_consensus_point c -> wf c s -> perm_ok o s -> s_active s <> [] -> pshape ob ->
    vstep inner c o (s, ob) = Ok (s', ob') ->
    good_val (fun m v => value ob (rank m (s_active s)) v) c o s s' /\ pshape ob'.
  Proof.
    intros c o s ob s' ob' C1 W P HA Hs H. apply vstep_inv in H. destruct H as (s0 & s2 & E1 & E2 & E3).
    destruct (pre_cons_full c o s W P) as (s0' & sc0 & ci & pi & cp0 & CO). pose proof (co_pre _ _ _ _ _ _ _ _ CO) as Epre.
    rewrite E1 in Epre. injection Epre as <-.
    destruct (cons_gather _ _ _ _ _ _ _ _ W P CO) as (xs & Exs & Rxs).
    assert (HA1 : 1 <= length (s_active s)) by (destruct (s_active s); cbn; [congruence|lia]).
    assert (Hb : 1 <= c_bsize c) by apply W.
    assert (F0 : s_active s0 = s_active s /\ s_x s0 = s_x s /\ s_energy s0 = s_energy s).
    { apply pre_step_frame in E1. destruct E1 as (ci' & pi' & ind & xo & ->). sst. auto. }
    destruct F0 as (F1 & F2 & F3).
    assert (Eci : s_cidx s0 = ci).
    { rewrite <- (co_cidx _ _ _ _ _ _ _ _ CO). pose proof (co_cons _ _ _ _ _ _ _ _ CO) as Ecc. apply compute_consensus_frame in Ecc. destruct Ecc as (cep & e & cp' & fc & nf & ->). sst. auto. }
    unfold reg_inner in E2. apply bind_ok in E2. destruct E2 as ([sc ob1] & HC & E2).
    pose proof HC as HC0. unfold compute_consensus_with in HC. apply bind_ok in HC. destruct HC as (s1 & Es & HC).
    destruct (msp_frame _ _ _ Es) as [cep ->]. sstall. rewrite Exs in HC. cbn [bind] in HC.
    apply bind_ok in HC. destruct HC as ([ob2 ev] & Hev & HC). cbn [fst snd] in HC.
    apply bind_ok in HC. destruct HC as (al & Hal & HC). apply bind_ok in HC. destruct HC as (cp & Hcp & HC).
    apply bind_ok in HC. destruct HC as (en & Hen & HC). sstall.
    assert (Hlen : length ev = length (s_active s) \/ length ev = 1).
    { rewrite Eci, F3 in Hen. exact (scatter_ok_rows _ _ _ _ _ _ _ _ (co_gc _ _ _ _ _ _ _ _ CO) (w_e _ _ W) Hen). }
    destruct (reg_call_priced _ _ _ _ _ _ Rxs HA1 Hb Hs Hev Hlen) as (Lev & Hval & Hs2).
    assert (HvalA : forall k m xb, nth_error (s_active s) k = Some m -> nth_error xs k = Some xb ->
              nth_error ev k = Some (map ((fun m v => value ob (rank m (s_active s)) v) m) xb)).
    { intros k m xb Hk Hxb. rewrite (Hval _ _ Hxb). f_equal. apply map_ext. intros v. rewrite (rank_nth _ k); auto. apply incr_NoDup. apply W. }
    assert (Hcons : s_cons sc = Some cp /\ s_x sc = s_x s /\ length (s_nfe sc) = length (s_nfe sc)).
    { injection HC as <- <-. sst. auto. }
    destruct Hcons as (Hcons & Hx & _).
    rewrite (the_cons_ok _ _ Hcons) in E2. cbn [bind] in E2. rewrite Hx in E2.
    assert (Hob : ob2 = ob1) by (injection HC; auto). subst ob2.
    (* shapes *)
    assert (Rx : rect (s_M s) (s_N s) (s_x s)) by apply W.
    apply bind_ok in E2. destruct E2 as (d & Hd & E2). apply bind_ok in E2. destruct E2 as (a & Ha & E2).
    apply bind_ok in E2. destruct E2 as (xt & Hxt & E2). apply bind_ok in E2. destruct E2 as (x' & Hx' & E2). injection E2 as <- <-.
    assert (Rcp : rect (length (s_active s)) 1 cp).
    { apply (cc_one c ev xs al); auto. { rewrite (takeM_length _ _ _ _ Hal), F1. auto. } apply Rxs. }
    pose proof (active_bounds _ _ W) as HB. assert (HN : 1 <= s_N s) by apply W.
    assert (E5 : forall a, bdim a a = a) by (intros; unfold bdim; destruct (_ =? _); auto).
    destruct (bc2_ok_inv _ _ _ _ _ _ _ (s_M s) (s_N s) _ 1 Rx Rcp ltac:(lia) HA1 Hd) as (CM & _ & Rd).
    destruct (compat_le (s_M s) (length (s_active s)) ltac:(lia) CM) as [E6 _]. rewrite E6 in Rd.
    assert (E7 : bdim (s_N s) 1 = s_N s) by (unfold bdim; destruct (Nat.eqb_spec (s_N s) 1); auto). rewrite E7 in Rd.
    apply (bc2_ok_inv _ _ _ _ _ _ _ (s_M s) (s_N s) (s_M s) (s_N s)) in Ha; try lia; auto; [|apply rect_map; auto]. destruct Ha as (_ & _ & Ra). rewrite !E5 in Ra.
    apply (bc2_ok_inv _ _ _ _ _ _ _ (s_M s) (s_N s) (s_M s) (s_N s)) in Hxt; try lia; auto; [|apply rect_amapi; auto]. destruct Hxt as (_ & _ & Rxt). rewrite !E5 in Rxt.
    assert (Rx' : rect (s_M s) (s_N s) x').
    { destruct solve as [g|].
      - unfold solve_all in Hx'. rewrite (bc2_same _ _ _ _ (s_M s) (s_N s)) in Hx' by auto. cbn [bind] in Hx'.
        eapply mapM_rect; [exact Hx'|]. apply rect_map2; auto.
      - injection Hx' as <-. auto. }
    rewrite <- (set_same sc) in E3. split; auto.
    exact (proj1 (inner_val_char _ _ ob ob1 xs ev (fun m v => value ob (rank m (s_active s)) v) c o s s0 sc x' d (s_fcalls sc) (s_nfe sc) s' W P E1 Exs Hev Lev HvalA ob1 HC0 eq_refl Rx' E3)).
  Qed.

  Lemma priced_value : forall la (c : cfg) s ob log m v y, pexec f reg pow la solve eps c (s, ob) log -> In (m, v, y) log ->
    exists a, y = fadd (f v) (fmul a (pow (reg v))).
  Proof.
    intros la c s ob log m v y H. remember (s, ob) as p eqn:Ep. revert s ob Ep.
    induction H; intros s1 ob1 Ep Hin; injection Ep as <- <-; eauto.
    - contradiction.
    - apply in_app_or in Hin. destruct Hin as [Hin|Hin]; eauto. apply in_map_iff in Hin. destruct Hin as (q & Eq & _). injection Eq as <- <- <-.
      eexists. reflexivity.
  Qed.

  Section Best.
    Context {OL : KOrd K}.

    Definition pen_inv (s : st) (log : list (nat * V * F)) : Prop :=
      forall m r, row_at s m = Some r ->
        (forall e, In e (r_e r) -> is_nan e = false /\ fleb (r_be r) e = true) /\
        is_nan (r_be r) = false /\
        (r_be r = PInf \/ In (m, r_bp r, r_be r) log) /\
        (forall v y, In (m, v, y) log -> fleb (r_be r) y = true).

  Lemma in_evaluated_val : forall g (c : cfg) (o : orc) s s' m v, wf c s -> perm_ok o s -> good_val g c o s s' ->
    (In (m, v) (evaluated s s') <->
     In m (s_active s) /\ exists xr xb, nth_error (s_x s) m = Some xr /\ takeM xr (run_sel c o s m) = Ok xb /\ In v xb).
  Proof.
    intros g c o s s' m v W P H. destruct H as (_ & _ & (xs & Exs & Lxs & Hxs) & _).
    unfold evaluated. rewrite Exs. rewrite in_concat. split.
    - intros (l & Hl & Hin). apply In_nth_error in Hl. destruct Hl as [k Hk]. rewrite map2_nth in Hk.
      destruct (nth_error (s_active s) k) as [m'|] eqn:Em; try discriminate.
      destruct (nth_error xs k) as [row|] eqn:Er; try discriminate. inversion Hk; subst l.
      apply in_map_iff in Hin. destruct Hin as (v' & Ev & Hin). inversion Ev; subst.
      pose proof (nth_error_In _ _ Em) as Hm. split; auto.
      assert (Hlt : m < length (s_x s)) by (rewrite (proj1 (w_x _ _ W)); apply W; auto).
      destruct (nth_error_lt_Some _ _ _ Hlt) as [xr Exr].
      destruct (Hxs _ _ _ Em Exr) as (xb & E1 & E2). rewrite Er in E1. inversion E1; subst. eauto.
    - intros (Hm & xr & xb & Exr & Etk & Hin). apply In_nth_error in Hm. destruct Hm as [k Em].
      destruct (Hxs _ _ _ Em Exr) as (xb' & E1 & E2). rewrite Etk in E2. inversion E2; subst xb'.
      exists (map (pair m) xb). split.
      + apply nth_error_In with (n := k). rewrite map2_nth, Em, E1. auto.
      + apply in_map. auto.
  Qed.

  Lemma pen_inv_init : forall (c : cfg) s, constructed c s -> pen_inv s [].
  Proof.
    intros c s (x0 & chk & al & sg & la & dt & perm0 & names & extra & save & Hx & HN & Hb & Hp & Hs & H).
    unfold init in H. apply bind_ok in H. destruct H as (bp & Ebp & H). injection H as E0.
    match type of E0 with init_history _ _ _ ?s1 = _ => destruct (init_history_char names extra save s1) as (ts & h & E & _ & _) end.
    rewrite E in E0. clear E. rewrite <- E0. clear E0 s. intros m r Hr. apply row_at_lt in Hr. ssti Hr.
    destruct Hr as (_ & _ & He & _ & Hbe & _).
    apply nth_error_In, repeat_spec in Hbe. rewrite Hbe.
    apply nth_error_In, repeat_spec in He. rewrite He.
    split. { intros e Hin. apply repeat_spec in Hin. subst e. auto. }
    split; auto.
  Qed.

  Lemma pen_inv_step : forall g (c : cfg) (o : orc) s s' log, (forall m v, In (m, v) (evaluated s s') -> is_nan (g m v) = false) -> wf c s -> perm_ok o s -> good_val g c o s s' ->
    pen_inv s log -> pen_inv s' (log ++ map (fun p => (fst p, snd p, g (fst p) (snd p))) (evaluated s s')).
  Proof.
    intros g c o s s' log NN W P HS I m r' Hr'.
    pose proof (fun v => in_evaluated_val g c o s s' m v W P HS) as HE.
    destruct HS as (W' & (EM & _) & _ & HR).
    assert (Hm : m < s_M s).
    { apply row_at_lt in Hr'. destruct Hr' as (Hlt & _). rewrite (proj1 (w_x _ _ W')) in Hlt. congruence. }
    destruct (row_at_Some c s m W Hm) as (r & Er & Exr & _).
    destruct (HR m r Er) as (xr & er & nf & r'' & Hact & Hina & Hpost & Er'').
    rewrite Hr' in Er''. inversion Er''; subst r''. clear Er''.
    destruct (I m r Er) as (I1 & I2 & I3 & I4).
    (* entries of er are fresh or old *)
    assert (Hent : forall j e, nth_error er j = Some e ->
              (In e (r_e r)) \/ (In m (s_active s) /\ exists v, In (m, v) (evaluated s s') /\ nth_error (r_x r) j = Some v /\ e = g m v)).
    { intros j e Ej. destruct (in_dec Nat.eq_dec m (s_active s)) as [Hi|Hi].
      - destruct (Hact Hi) as (xb & T1 & T2).
        assert (Ll : length (map (g m) xb) = length (run_sel c o s m)).
        { rewrite map_length. eapply takeM_length; eauto. }
        rewrite (put1_nth _ _ _ _ _ j Ll T2) in Ej.
        destruct (last_index j (run_sel c o s m)) as [k|] eqn:El.
        + destruct (j <? length (r_e r)); try discriminate. right. split; auto.
          rewrite nth_error_map in Ej. destruct (nth_error xb k) as [v|] eqn:Ev; cbn in Ej; inversion Ej.
          exists v. split; [|split]; auto.
          * apply HE. split; auto. exists (r_x r), xb. repeat split; auto. eapply nth_error_In; eauto.
          * apply last_index_Some in El. pose proof (takeM_nth _ _ _ _ _ _ T1 El) as E2. congruence.
        + left. eapply nth_error_In; eauto.
      - rewrite (Hina Hi) in Ej. left. eapply nth_error_In; eauto. }
    assert (Hfresh : forall v, In (m, v) (evaluated s s') -> NoDup (run_sel c o s m) \/ True) by auto.
    assert (Hn : forall e, In e er -> is_nan e = false).
    { intros e He. apply In_nth_error in He. destruct He as [j Ej].
      destruct (Hent _ _ Ej) as [Hold | (_ & v & Hv & _ & ->)]. apply I1; auto. apply NN; auto. }
    destruct (run_post_be _ _ _ _ Hpost) as (Re & Rn & Rle & Rall & Rnew); cbn; auto.
    cbn in *. split.
    { intros e He. rewrite Re in He. auto. }
    split; auto. split.
    - destruct Rnew as [[Eb Ep] | (j & p & Hlt & Ej & Exj & Ep)].
      + rewrite Eb, Ep. destruct I3 as [I3|I3]; auto. right. apply in_or_app; auto.
      + right. destruct (Hent _ _ Ej) as [Hold | (Hi & v & Hv & Exv & Ev)].
        * exfalso. destruct (I1 _ Hold) as [_ Hle]. apply fleb_not_lt in Hle. congruence.
        * rewrite Exj in Exv. inversion Exv; subst v. rewrite Ep, Ev. apply in_or_app. right. apply in_map_iff. exists (m, p). auto.
    - intros v y Hv. apply in_app_or in Hv. destruct Hv as [Hv|Hv].
      + eapply fleb_trans; eauto.
      + apply in_map_iff in Hv. destruct Hv as ([m1 v1] & Epv & Hv). cbn [fst snd] in Epv. injection Epv as -> -> <-.
        rename Hv into Hv0. pose proof Hv0 as Hv. apply HE in Hv. destruct Hv as (Hi & xr0 & xb & Ex0 & T1 & Hv).
        rewrite Exr in Ex0. inversion Ex0; subst xr0.
        destruct (Hact Hi) as (xb' & T1' & T2). rewrite T1 in T1'. inversion T1'; subst xb'.
        (* the value is, for the last occurrence of its index, in er; values at repeated indices agree *)
        apply In_nth_error in Hv. destruct Hv as [k Ek].
        assert (Hk : k < length (run_sel c o s m)).
        { rewrite <- (takeM_length _ _ _ _ T1). eapply nth_error_lt; eauto. }
        destruct (nth_error_lt_Some _ _ _ Hk) as [j Ej].
        pose proof (takeM_nth _ _ _ _ _ _ T1 Ej) as Exj. rewrite Ek in Exj.
        apply Rall. apply nth_error_In with (n := j).
        assert (Ll : length (map (g m) xb) = length (run_sel c o s m)).
        { rewrite map_length. eapply takeM_length; eauto. }
        rewrite (put1_nth _ _ _ _ _ j Ll T2).
        destruct (last_index j (run_sel c o s m)) as [k'|] eqn:El.
        * apply last_index_Some in El. pose proof (takeM_nth _ _ _ _ _ _ T1 El) as Exj'.
          rewrite nth_error_map.
          assert (j < length (r_e r)).
          { destruct (row_at_lt _ _ _ Er) as (_ & _ & Ee & _).
            rewrite (proj2 (w_e _ _ W) _ _ Ee), <- (proj2 (w_x _ _ W) _ _ Exr). eapply nth_error_lt; eauto. }
          rewrite (proj2 (Nat.ltb_lt _ _) H). rewrite Exj', <- Exj. reflexivity.
        * apply last_index_None in El. exfalso. apply El. eapply nth_error_In; eauto.
  Qed.

  Lemma pen_inv_term : forall (c : cfg) s b s' log, terminate c s = Ok (b, s') -> pen_inv s log -> pen_inv s' log.
  Proof.
    intros c s b s' log H I. apply terminate_char in H. destruct H as (act & reason & -> & _).
    intros m r Hr. apply (I m r). destruct s; auto.
  Qed.
  Lemma pen_inv_params : forall (c : cfg) s s' log, wf c s -> params_changed s s' -> pen_inv s log -> pen_inv s' log.
  Proof.
    intros c s s' log W H I. destruct H as (al & sg & la & d & _ & ->). intros m r Hr.
    assert (Hm : m < s_M s).
    { rewrite <- (proj1 (w_x _ _ W)). apply row_at_lt in Hr. destruct s; apply Hr. }
    destruct (row_at_Some c s m W Hm) as (r0 & Er0 & E1 & E2 & E3 & E4 & E5 & _).
    apply row_at_lt in Hr. sstall. destruct Hr as (_ & F1 & F2 & _ & F4 & F5 & _).
    destruct (I m r0 Er0) as (A1 & A2 & A3 & A4).
    assert (r_e r = r_e r0) by congruence. assert (r_be r = r_be r0) by congruence. assert (r_bp r = r_bp r0) by congruence.
    rewrite H, H0, H1. auto.
  Qed.
  Lemma pen_inv_reset : forall (c : cfg) s log, pen_inv s log -> pen_inv (reset s) log.
  Proof. intros c s log I. destruct (reset_char s) as (ts & h & -> & _). intros m r Hr. apply (I m r). destruct s; auto. Qed.


    Notation run := (pexec f reg pow).

    Theorem pen_exec : forall la (c : cfg) s ob log, one_consensus_point c -> run la solve eps c (s, ob) log ->
      (forall m v y, In (m, v, y) log -> is_nan y = false) -> wf c s /\ pshape ob /\ pen_inv s log.
    Proof.
      intros la c s ob log C1 H. remember (s, ob) as p eqn:Ep. revert s ob Ep.
      induction H; intros s1 ob1 Ep NN; injection Ep as <- <-.
      - split. { apply constructed_wf; auto. } split. { left. auto. } eapply pen_inv_init; eauto.
      - destruct (IHpexec _ _ eq_refl) as (W & Hs & I). { intros m v y Hin. eapply NN. apply in_or_app. eauto. }
        pose proof (perms_valid_ok _ _ H0) as P.
        destruct (pen_step c o s ob s' ob' C1 W P H1 Hs H2) as (GV & Hs'). split. { apply GV. } split; auto.
        unfold priced. eapply (pen_inv_step (fun m v => value ob (rank m (s_active s)) v)); eauto.
        intros m v Hin. eapply (NN m v). apply in_or_app. right. unfold priced. apply in_map_iff. exists (m, v). auto.
      - destruct (IHpexec _ _ eq_refl NN) as (W & Hs & I). split. { eapply terminate_wf; eauto. } split; [auto|]. eapply pen_inv_term; eauto.
      - destruct (IHpexec _ _ eq_refl NN) as (W & Hs & I). split. { eapply params_wf; eauto. } split; [auto|]. eapply pen_inv_params; eauto.
      - destruct (IHpexec _ _ eq_refl NN) as (W & Hs & I). split. { eapply reset_wf; eauto. } split; [auto|]. eapply pen_inv_reset; eauto.
      - destruct (IHpexec _ _ eq_refl NN) as (W & Hs & I). split. { destruct W. constructor; sst; auto. congruence. } split.
        + destruct H0 as (_ & l & l' & E1 & E2 & L & R). destruct Hs as [Hs|(l0 & Hs & Rl & Hne)]; [congruence|]. rewrite E1 in Hs. injection Hs as <-.
          right. exists l'. split; auto. split. { split; auto. } intros ->. apply Hne. destruct l; auto. discriminate.
        + intros m r Hr. destruct (row_at_lt _ _ _ Hr) as (Hm & Ex & Ee & Ea & Ebe & Ebp & _). sstall.
          assert (Hm' : m < s_M s) by (rewrite <- (proj1 (w_x _ _ W)); auto).
          destruct (row_at_Some c s m W Hm') as (r0 & Er0 & F1 & F2 & F3 & F4 & F5 & _).
          destruct (I m r0 Er0) as (A1 & A2 & A3 & A4).
          assert (r_e r = r_e r0) by congruence. assert (r_be r = r_be r0) by congruence. assert (r_bp r = r_bp r0) by congruence.
          rewrite H2, H3, H4. auto.
    Qed.

    Theorem pen_best : forall la (c : cfg) s ob log m be bp, one_consensus_point c -> run la solve eps c (s, ob) log ->
      (forall m v y, In (m, v, y) log -> is_nan y = false) -> nth_error (s_be s) m = Some be -> nth_error (s_bp s) m = Some bp ->
      (be = PInf \/ In (m, bp, be) log) /\ forall v y, In (m, v, y) log -> fleb be y = true.
    Proof.
      intros la c s ob log m be bp C1 H NN Hbe Hbp. destruct (pen_exec la c s ob log C1 H NN) as (W & _ & I).
      assert (Hm : m < s_M s) by (rewrite <- (w_be _ _ W); eapply nth_error_lt; eauto).
      destruct (row_at_Some c s m W Hm) as (r & Er & _ & _ & _ & E1 & E2 & _).
      destruct (I m r Er) as (_ & _ & I1 & I2).
      assert (be = r_be r) by congruence. assert (bp = r_bp r) by congruence. subst. auto.
    Qed.

    (** a point evaluated once below all feasible values keeps every feasible point from becoming the best one *)
    Theorem pen_infeasible : forall la (c : cfg) s ob log m be bp v0 y0 (feasible : V -> Prop), one_consensus_point c -> run la solve eps c (s, ob) log ->
      (forall m v y, In (m, v, y) log -> is_nan y = false) -> nth_error (s_be s) m = Some be -> nth_error (s_bp s) m = Some bp ->
      In (m, v0, y0) log -> y0 <> PInf ->
      (forall v a, feasible v -> let y := fadd (f v) (fmul a (pow (reg v))) in is_nan y = false -> fltb y0 y = true) -> ~ feasible bp.
    Proof.
      intros la c s ob log m be bp v0 y0 feasible C1 H NN Hbe Hbp Hin Hy Hf Hb.
      destruct (pen_best la c s ob log m be bp C1 H NN Hbe Hbp) as [[->|I1] I2].
      - specialize (I2 _ _ Hin). specialize (NN _ _ _ Hin). destruct y0; cbn in *; congruence.
      - destruct (priced_value _ _ _ _ _ _ _ _ H I1) as (a & Ea). pose proof (NN _ _ _ I1) as Nb. rewrite Ea in Nb.
        specialize (Hf bp a Hb Nb). cbv zeta in Hf. rewrite <- Ea in Hf. specialize (I2 _ _ Hin). apply fleb_not_lt in I2. congruence.
    Qed.
  End Best.
End Run.
