(** * Undefined objective values send the run to the threshold of the post-processing *)
From Coq Require Import String List Arith Bool Reals Permutation Lia Lra.
From Verif Require Import Scalar Np NpFacts State Pdyn PdynFacts PdynStep PdynRun PdynOk Exec RunFacts MoveFacts RVec RVecFacts RFacts
  Consensus ConsSpec ConsFacts PostProc PostFacts Cbo CboSpec CboFacts AbsorbFacts NanSpec.
Import ListNotations.
Open Scope R_scope.

(** ** the mean *)
Lemma fadd_nan_r : forall a : fl R, fadd a NaN = NaN.
Proof. destruct a; reflexivity. Qed.
Lemma fadd_nan_l : forall a : fl R, fadd NaN a = NaN.
Proof. destruct a; reflexivity. Qed.
Lemma fmul_nan_r : forall a : fl R, fmul a NaN = NaN.
Proof. destruct a; reflexivity. Qed.
Lemma fsub_nan_r : forall a : fl R, fsub a NaN = NaN.
Proof. destruct a; reflexivity. Qed.
Lemma fsum_nan : forall l, In NaN l -> fsum l = NaN.
Proof.
  induction l as [|a l IH]; intros H; [destruct H|]. cbn. destruct H as [->|H]; [apply fadd_nan_l|].
  unfold fsum in IH. rewrite IH by auto. apply fadd_nan_r.
Qed.

Lemma wmean_nan : forall cs x d i, length x = length cs -> (forall p, In p x -> length p = d) -> nth_error cs i = Some NaN ->
  wmean cs x = repeat NaN d.
Proof.
  intros cs x d i HL Hx Hi. unfold wmean.
  assert (Hd : dim x = d).
  { unfold dim. destruct x as [|p x]. { cbn in HL. destruct cs; [|discriminate]. destruct i; discriminate. } apply Hx. cbn. auto. }
  rewrite Hd. rewrite <- (seq_length d 0) at 2. generalize (seq 0 d) as l. intros l. induction l as [|a l IH]; auto. cbn [map length repeat]. f_equal; auto.
  apply fsum_nan. unfold column. destruct (nth_error_lt_Some _ (map (fun p => nth a p NaN) x) i) as (q & Hq).
  { rewrite map_length, HL. eapply nth_error_lt; eauto. }
  apply nth_error_In with i. rewrite map2_nth, Hq, Hi. cbn. f_equal. apply fmul_nan_r.
Qed.

Lemma softmax_nan : forall w, w <> [] -> In NaN w \/ In PInf w \/ (forall e, In e w -> e = NInf) -> exists i, nth_error (softmax w) i = Some NaN.
Proof.
  intros w Hw H. unfold softmax. destruct (in_dec (fun a b : fl R => ltac:(decide equality; apply Req_EM_T)) NaN w) as [HN|HN].
  { exists 0%nat. replace (logsumexp w) with (@NaN R).
    - rewrite nth_error_map. destruct w as [|a w]; [congruence|]. cbn [nth_error option_map]. rewrite fsub_nan_r. reflexivity.
    - unfold logsumexp. rewrite fsum_nan; [reflexivity|]. apply in_map_iff. exists NaN. auto. }
  destruct H as [H|[H|H]]; [contradiction| |].
  - apply In_nth_error in H. destruct H as (i & Hi). exists i. rewrite nth_error_map, Hi. cbn [option_map].
    assert (L : logsumexp w = PInf).
    { unfold logsumexp. replace (fsum (map fexp w)) with (@PInf R); [reflexivity|]. symmetry.
      assert (Q : forall l, ~ In NaN l -> fsum (map fexp l) = PInf \/ (exists y, 0 <= y /\ fsum (map fexp l) = Fin y) /\ ~ In PInf l).
      { induction l as [|a l IH]; intros Hn. { right. split; [exists 0; split; [lra|reflexivity]|intros []]. }
        destruct IH as [IH|((y & Hy & IH) & Hp)]. { intros H. apply Hn. cbn. auto. }
        - left. cbn. unfold fsum in IH. rewrite IH. destruct a; try reflexivity. exfalso. apply Hn. cbn. auto.
        - cbn. unfold fsum in IH. rewrite IH. destruct a as [x| | |]; cbn.
          + right. split. { exists (exp x + y). split; [pose proof (exp_pos x); lra|reflexivity]. } intros [H|H]; [discriminate|contradiction].
          + left. reflexivity.
          + right. split. { exists (0 + y). split; [lra|reflexivity]. } intros [H|H]; [discriminate|contradiction].
          + exfalso. apply Hn. cbn. auto. }
      destruct (Q w HN) as [|[_ Hp]]; auto. exfalso. apply Hp. eapply nth_error_In; eauto. }
    rewrite L. reflexivity.
  - exists 0%nat. assert (L : logsumexp w = NInf).
    { unfold logsumexp. assert (E : fsum (map fexp w) = Fin 0).
      { clear Hw HN. induction w as [|a w IH]; auto. cbn. unfold fsum in IH. rewrite IH by (intros; apply H; cbn; auto).
        rewrite (H a) by (cbn; auto). cbn. f_equal. lra. }
      rewrite E. cbn. rewrite (proj2 (Rltb_false 0 0)) by lra. reflexivity. }
    rewrite L, nth_error_map. destruct w as [|a w]; [congruence|]. cbn [nth_error option_map]. rewrite (H a) by (cbn; auto). reflexivity.
Qed.

Lemma coeffs_length : forall E a, length (coeffs E a) = length E.
Proof. intros. unfold coeffs, softmax. rewrite !map_length. auto. Qed.

Theorem mean_undefined : forall a E d x, 0 < a -> undefined_mean E -> E <> [] -> length x = length E -> (forall p, In p x -> length p = d) ->
  cc_default E x (Fin a) = [repeat NaN d].
Proof.
  intros a E d x Ha H HE HL Hx. unfold cc_default. f_equal.
  destruct (softmax_nan (map (fun ei => fmul (fopp (Fin a)) ei) E)) as (i & Hi).
  - destruct E; [congruence|discriminate].
  - assert (M1 : fmul (fopp (Fin a)) NInf = PInf).
    { cbn. unfold inf_sign. cbn. destruct (Rltb 0 (- a)) eqn:Q. { apply Rltb_true in Q. lra. } destruct (Rltb (- a) 0) eqn:Q2; auto. apply Rltb_false in Q2. lra. }
    assert (M2 : fmul (fopp (Fin a)) PInf = NInf).
    { cbn. unfold inf_sign. cbn. destruct (Rltb 0 (- a)) eqn:Q. { apply Rltb_true in Q. lra. } destruct (Rltb (- a) 0) eqn:Q2; auto. apply Rltb_false in Q2. lra. }
    destruct H as [H|[H|H]].
    + left. apply in_map_iff. exists NaN. split; auto.
    + right. left. apply in_map_iff. exists NInf. auto.
    + right. right. intros e He. apply in_map_iff in He. destruct He as (e' & <- & He). rewrite (H e' He). exact M2.
  - apply wmean_nan with (i := i); auto. rewrite coeffs_length. auto.
Qed.

(** the mean is defined exactly for the admissible energies *)
Theorem mean_dichotomy : forall a E d X, 0 < a -> E <> [] -> ensemble (length E) d X -> (0 < d)%nat ->
  (admissible a E /\ cc_default E (map floats X) (Fin a) = [floats (gibbs_point a E d X)]) \/
  (undefined_mean E /\ cc_default E (map floats X) (Fin a) = [repeat NaN d]).
Proof.
  intros a E d X Ha HE HX Hd.
  assert (Q : admissible a E \/ undefined_mean E).
  { clear HX. unfold undefined_mean, admissible.
    assert (D : (forall e, In e E -> (exists x, e = Fin x) \/ e = PInf /\ 0 < a) \/ In NaN E \/ In NInf E).
    { clear HE. induction E as [|e E IH]. { left. intros e []. } destruct IH as [IH|[IH|IH]]; [|right; left; cbn; auto|right; right; cbn; auto].
      destruct e; [left|left|right; right; cbn; auto|right; left; cbn; auto]; intros e' [<-|He]; auto. left; eauto. }
    destruct D as [D|[D|D]]; auto.
    assert (F : (exists x, In (Fin x) E) \/ forall e, In e E -> e = PInf).
    { clear HE. induction E as [|e E IH]. { right. intros e []. }
      destruct IH as [(x & Hx)|IH]. { intros; apply D; cbn; auto. } { left. exists x. cbn. auto. }
      destruct (D e) as [(x & ->)|[-> _]]; [cbn; auto| |]. { left. exists x. cbn; auto. } right. intros e' [<-|He]; auto. }
    destruct F as [F|F]; auto. }
  destruct Q as [Q|Q]; [left|right]; split; auto.
  - apply consensus_gibbs; auto.
  - apply mean_undefined; auto. { rewrite map_length. apply HX. } intros p Hp. apply in_map_iff in Hp. destruct Hp as (q & <- & Hq).
    unfold floats. rewrite map_length. apply HX; auto.
Qed.

(** ** the step *)
Section Dead.
  Variables (f : vec -> fl R) (k : noise_model) (pp : vec -> vec) (b : nat) (partial cat : bool) (ks : list (crit R vec)) (save : bool).
  Let c := cbo_cfg f k pp NoCorr b partial cat ks save.

  (** positions after a step: particles outside the updated ones are post-processed only *)
  Lemma positions_sel : forall s log (o : orc vec) s' kk m xr a,
    exec c s log -> perms_valid o s -> step c o s = Ok s' ->
    nth_error (s_active s) kk = Some m -> nth_error (s_x s) m = Some xr -> nth_error (s_alpha s) m = Some [a] ->
    exists xb cp xr', takeM xr (run_sel c o s m) = Ok xb /\ xb <> [] /\
      c_ccrow c (map (c_f c) xb) xb a = [cp] /\ nth_error (s_x s') m = Some xr' /\ length xr' = length xr /\
      forall n v, nth_error xr n = Some v ->
        (In n (run_selp c o s m) -> exists i, nth_error (run_selp c o s m) i = Some n /\ nth_error xr' n = Some (pp (moved c s cp v (o_z o kk i)))) /\
        (~ In n (run_selp c o s m) -> nth_error xr' n = Some (pp v)).
  Proof.
    intros s log o s' kk m xr a E P HS Hk Hx Ha.
    pose proof (exec_wf _ _ _ E) as W. pose proof (perms_valid_ok _ _ P) as P'.
    pose proof (cbo_one_point f k pp b partial cat ks save) as CS. fold c in CS.
    assert (CC : cc_shape c (s_N s)) by (left; exact CS).
    destruct (step_char c o s W P' CC eq_refl) as (s2 & HS2 & W' & _ & _ & _ & (cps & ds & _ & _ & _ & _ & HR) & _).
    rewrite HS in HS2. injection HS2 as <-.
    assert (Hm : (m < s_M s)%nat) by (apply W; eapply nth_error_In; eauto).
    destruct (row_at_Some c s m W Hm) as (r & Hr & _).
    destruct (HR kk m r Hk Hr) as (r1 & cpr & dr & r' & HM & _ & _ & HP & Hr').
    destruct (row_at_fields _ _ _ Hr) as (F1 & F2 & F3). destruct (row_at_fields _ _ _ Hr') as (G1 & _ & _).
    rewrite Hx in F1. injection F1 as F1. rewrite Ha in F2. injection F2 as F2.
    unfold run_move in HM. rewrite <- F2, <- F1 in HM.
    apply bind_ok in HM. destruct HM as (xb & HB & HM). apply bind_ok in HM. destruct HM as (er & _ & HM).
    apply bind_ok in HM. destruct HM as (xp & HXP & HM). cbv zeta in HM. apply bind_ok in HM. destruct HM as (xr1 & HPUT & HM).
    assert (EX : r_x r1 = xr1) by (inversion HM; reflexivity). clear HM.
    pose proof (run_post_x _ _ _ _ HP) as HX'. rewrite EX in HX'.
    assert (L1 := CS (map (c_f c) xb) xb a). destruct (c_ccrow c (map (c_f c) xb) xb a) as [|cp [|]] eqn:EC; try discriminate.
    rewrite rowop_one in HPUT.
    assert (EU : forall l, map2 (c_vadd c) l (mapi (fun n v => cbo_update c v (s_lamda s) (s_dt s) (s_sigma s) (c_noise c (s_dt s) v (o_z o kk n))) (map (fun v => c_vsub c v cp) l)) =
       mapi (fun n v => moved c s cp v (o_z o kk n)) l).
    { intros l. apply nth_error_ext. intros n. rewrite map2_nth, !mapi_nth, nth_error_map. destruct (nth_error l n); reflexivity. }
    rewrite EU in HPUT.
    exists xb, cp, (r_x r'). split; auto. split.
    { intros ->. pose proof (takeM_length _ _ _ _ HB) as L. rewrite (run_sel_length c o s m W P' Hm) in L. cbn [length] in L. destruct W. lia. }
    split; auto. split; auto. split. { rewrite HX', map_length. apply (put1_length _ _ _ _ _ HPUT). }
    intros n v Hn. rewrite HX'.
    assert (LL : length (mapi (fun n v => moved c s cp v (o_z o kk n)) xp) = length (run_selp c o s m)).
    { rewrite mapi_length. apply (takeM_length _ _ _ _ HXP). }
    pose proof (put1_nth _ _ _ _ _ n LL HPUT) as PN.
    rewrite nth_error_map, PN. destruct (last_index n (run_selp c o s m)) as [i|] eqn:EL.
    + apply last_index_Some in EL. pose proof (takeM_nth _ _ _ _ _ _ HXP EL) as T.
      rewrite (proj2 (Nat.ltb_lt _ _) (nth_error_lt _ _ _ _ Hn)), mapi_nth, T, Hn. cbn [option_map].
      split. { intros _. exists i. split; auto. } intros NI. exfalso. apply NI. eapply nth_error_In; eauto.
    + rewrite Hn. apply last_index_None in EL. cbn [option_map]. split; auto. contradiction.
  Qed.

  Lemma moved_nan : forall s d v z, length v = d -> length z = d -> moved c s (repeat NaN d) v z = repeat NaN d.
  Proof.
    intros s d v z Hv Hz. unfold moved, cbo_update. cbn [c cbo_cfg c_vadd c_vsub c_vscale c_noise].
    assert (D : map2 fsub v (repeat NaN d) = repeat NaN d).
    { clear Hz. subst d. induction v as [|a v IH]; cbn; auto. rewrite IH, fsub_nan_r. auto. }
    rewrite D.
    assert (Q : forall w : vec, length w = d -> map2 fadd v (map2 fadd (map (fmul (fmul (fopp (s_lamda s)) (s_dt s))) (repeat NaN d)) w) = repeat NaN d).
    { rewrite map_repeat, fmul_nan_r. clear Hz D. subst d. induction v as [|a v IH]; intros [|q w] Hw; try discriminate; cbn; auto.
      rewrite IH by (cbn in Hw; lia). destruct q; cbn; rewrite fadd_nan_r; auto. }
    match goal with |- map2 fadd v (map2 fadd _ ?w) = _ => specialize (Q w) end.
    apply Q. rewrite map_length. unfold noise_of. rewrite map_length. destruct k; rewrite ?map_length, ?map2_length, ?repeat_length; lia.
  Qed.

  (** one step with undefined energies in the batch *)
  Theorem dead_step : forall s log o s' kk m xr xb a d, exec c s log -> perms_valid o s -> finite_draws d o -> step c o s = Ok s' ->
    nth_error (s_active s) kk = Some m -> nth_error (s_x s) m = Some xr -> (forall v, In v xr -> length v = d) ->
    nth_error (s_alpha s) m = Some [Fin a] -> 0 < a -> takeM xr (run_sel c o s m) = Ok xb -> undefined_mean (map f xb) ->
    exists xr', nth_error (s_x s') m = Some xr' /\ length xr' = length xr /\ forall n v, nth_error xr n = Some v ->
      (In n (run_selp c o s m) -> nth_error xr' n = Some (pp (repeat NaN d))) /\ (~ In n (run_selp c o s m) -> nth_error xr' n = Some (pp v)).
  Proof.
    intros s log o s' kk m xr xb a d E P HD HS Hk Hx Hl Ha Ha0 HB HU.
    destruct (positions_sel s log o s' kk m xr (Fin a) E P HS Hk Hx Ha) as (xb' & cp & xr' & HB' & HN & HC & Hx' & HL & HM).
    rewrite HB in HB'. injection HB' as <-. cbn [c cbo_cfg c_ccrow c_f] in HC.
    assert (Hlb : forall v, In v xb -> length v = d) by (intros v Hv; apply Hl; eapply takeM_In; eauto).
    rewrite (mean_undefined a (map f xb) d xb) in HC; auto; [|destruct xb; [congruence|discriminate]|rewrite map_length; auto].
    injection HC as <-. exists xr'. split; auto. split; auto. intros n v Hn. destruct (HM n v Hn) as [H1 H2]. split; auto.
    intros HI. destruct (H1 HI) as (i & _ & ->). destruct (HD kk i) as (z & -> & Lz).
    rewrite moved_nan; auto. { apply Hl. eapply nth_error_In; eauto. } unfold floats. rewrite map_length. auto.
  Qed.

  Lemma full_selp : forall o s m, b = s_N s \/ partial = false -> run_selp c o s m = seq 0 (s_N s).
  Proof. intros o s m [H|H]; unfold run_selp; cbn [c cbo_cfg c_bsize c_partial]; rewrite H; rewrite ?Nat.eqb_refl; auto. destruct (Nat.eqb b (s_N s)); auto. Qed.

  Theorem dead_full : forall s log o s' kk m xr xb a d p, exec c s log -> perms_valid o s -> finite_draws d o -> step c o s = Ok s' ->
    nth_error (s_active s) kk = Some m -> nth_error (s_x s) m = Some xr -> (forall v, In v xr -> length v = d) ->
    nth_error (s_alpha s) m = Some [Fin a] -> 0 < a -> takeM xr (run_sel c o s m) = Ok xb -> undefined_mean (map f xb) ->
    b = s_N s \/ partial = false -> pp (repeat NaN d) = floats p -> all_at s' m p.
  Proof.
    intros s log o s' kk m xr xb a d p E P HD HS Hk Hx Hl Ha Ha0 HB HU Hf Hp.
    destruct (dead_step s log o s' kk m xr xb a d E P HD HS Hk Hx Hl Ha Ha0 HB HU) as (xr' & Hx' & HL & HM).
    pose proof (exec_wf _ _ _ E) as W. assert (Lx : length xr = s_N s) by (eapply (proj2 (w_x _ _ W)); eauto).
    destruct (step_keeps _ _ _ _ _ _ _ _ s log o s' E P HS) as (K1 & K2 & _).
    unfold all_at. rewrite Hx', K2. f_equal. apply nth_error_ext. intros n. destruct (Nat.lt_ge_cases n (s_N s)) as [Hn|Hn].
    - destruct (nth_error_lt_Some _ xr n) as (v & Hv); [lia|]. destruct (HM n v Hv) as [H1 _]. rewrite H1, Hp.
      + rewrite nth_error_repeat, (proj2 (Nat.ltb_lt _ _) Hn). auto.
      + rewrite full_selp by auto. apply in_seq. lia.
    - rewrite (proj2 (nth_error_None _ _)) by lia. rewrite (proj2 (nth_error_None _ _)) by (rewrite repeat_length; lia). auto.
  Qed.

  (** at a point fixed by the post-processing and equal to its value at NaN the run stays, whatever the objective says there *)
  Lemma dead_stays_step : forall s log o s' m p, exec c s log -> perms_valid o s -> finite_draws (length p) o -> finite_alpha s -> finite_parameters s ->
    k <> NConst -> pp (floats p) = floats p -> pp (repeat NaN (length p)) = floats p -> step c o s = Ok s' ->
    all_at s m p -> all_at s' m p.
  Proof.
    intros s log o s' m p E P HD HA HP Hk Hpp Hpn HS Hx.
    assert (HF : (exists y, f (floats p) = Fin y) \/ (forall y, f (floats p) <> Fin y)).
    { destruct (f (floats p)) as [y| | |]; [left; eauto|right; discriminate..]. }
    destruct HF as [HF|HF]. { eapply (absorb_step f k pp b partial cat ks save); eauto. }
    pose proof (exec_wf _ _ _ E) as W. destruct (step_keeps _ _ _ _ _ _ _ _ s log o s' E P HS) as (K1 & K2 & _).
    unfold all_at in *. rewrite K2.
    assert (Hlt : (m < s_M s)%nat). { rewrite <- (proj1 (w_x _ _ W)). eapply nth_error_lt; eauto. }
    destruct (in_dec Nat.eq_dec m (s_active s)) as [Hm|Hm].
    - destruct (In_nth_error _ _ Hm) as (kk & Hkk). destruct (HA m Hlt) as (a & Ha).
      destruct (positions_sel s log o s' kk m _ (Fin a) E P HS Hkk Hx Ha) as (xb & cp & xr' & HB & HN & HC & Hx' & HL & HM).
      assert (Hxb : forall v, In v xb -> v = floats p).
      { intros v Hv. apply (takeM_In _ _ _ _ _ HB) in Hv. eapply repeat_spec; eauto. }
      assert (cp = repeat NaN (length p)).
      { cbn [c cbo_cfg c_ccrow c_f] in HC. unfold cc_default in HC. injection HC as <-.
        destruct (softmax_nan (map (fun ei => fmul (fopp (Fin a)) ei) (map f xb))) as (i & Hi).
        - destruct xb; [congruence|discriminate].
        - rewrite map_map. assert (W1 : forall e, In e (map (fun x => fmul (fopp (Fin a)) (f x)) xb) -> e = fmul (fopp (Fin a)) (f (floats p))).
          { intros e He. apply in_map_iff in He. destruct He as (v & <- & Hv). rewrite (Hxb v Hv). auto. }
          assert (W2 : exists e, In e (map (fun x => fmul (fopp (Fin a)) (f x)) xb)) by (destruct xb; [congruence|eexists; cbn; eauto]).
          destruct W2 as (e & He). pose proof (W1 e He) as Ee.
          assert (Q : forall y, fmul (fopp (Fin a)) (f (floats p)) <> Fin y).
          { intros y. destruct (f (floats p)) as [y'| | |]; cbn; unfold inf_sign; cbn.
            - exfalso. apply (HF y'). auto.
            - destruct (Rltb 0 (- a)); try discriminate. destruct (Rltb (- a) 0); discriminate.
            - destruct (Rltb 0 (- a)); try discriminate. destruct (Rltb (- a) 0); discriminate.
            - discriminate. }
          destruct (fmul (fopp (Fin a)) (f (floats p))) as [y| | |] eqn:EE.
          + exfalso. apply (Q y). auto.
          + right. left. rewrite <- Ee. auto.
          + right. right. exact W1.
          + left. rewrite <- Ee. auto.
        - apply wmean_nan with (i := i); auto. { rewrite coeffs_length, map_length. auto. }
          intros v Hv. rewrite (Hxb v Hv). unfold floats. apply map_length. }
      subst cp. rewrite Hx'. f_equal. apply nth_error_ext. intros n. destruct (Nat.lt_ge_cases n (s_N s)) as [Hn|Hn].
      + assert (Hv : nth_error (repeat (floats p) (s_N s)) n = Some (floats p)).
        { rewrite nth_error_repeat. rewrite (proj2 (Nat.ltb_lt _ _) Hn). auto. }
        transitivity (Some (floats p)); [|symmetry; exact Hv]. destruct (HM n (floats p) Hv) as [H1 H2].
        destruct (in_dec Nat.eq_dec n (run_selp c o s m)) as [HI|HI]; [|rewrite (H2 HI), Hpp; auto].
        destruct (H1 HI) as (i & _ & ->). destruct (HD kk i) as (z & -> & Lz).
        rewrite moved_nan, Hpn; auto; unfold floats; rewrite map_length; auto.
      + rewrite repeat_length in HL. rewrite (proj2 (nth_error_None _ _)) by lia. rewrite (proj2 (nth_error_None _ _)) by (rewrite repeat_length; lia). auto.
    - rewrite (step_positions_inactive c s log o s' m _ E P (cbo_plain _ _ _ _ _ _ _ _ _) HS Hm Hx). cbn [c cbo_cfg c_pp].
      rewrite map_repeat, Hpp. auto.
  Qed.

  Theorem dead_stays : forall s log m p s', exec c s log -> finite_alpha s -> finite_parameters s -> k <> NConst ->
    pp (floats p) = floats p -> pp (repeat NaN (length p)) = floats p -> all_at s m p -> later c (length p) s s' -> all_at s' m p.
  Proof.
    intros s log m p s' E HA HP Hk Hpp Hpn Hx H. induction H as [|s1 o s2 H IH P HD HS|s1 b' s2 H IH HT|s1 s2 H IH HC A2 P2|s1 H IH]; auto.
    - destruct (later_keep f k pp b partial cat ks save s log (length p) s1 E HA HP H) as ((l & E1) & A1 & P1 & N1). eapply dead_stays_step; eauto.
    - destruct (term_keeps _ _ _ _ _ _ _ _ s1 b' s2 HT) as (K0 & K1 & K2 & _). unfold all_at in *. rewrite K0, K2. auto.
    - destruct (params_keep _ _ HC) as (K0 & _ & K2). unfold all_at in *. rewrite K0, K2. auto.
  Qed.
End Dead.

Lemma pp_nan : forall t d, 0 <= t -> pp_point t false (repeat NaN d) = floats (repeat t d).
Proof.
  intros t d Ht. unfold pp_point, floats. rewrite !map_repeat. f_equal. unfold pp_default, nan_to_num.
  rewrite np_clip_fin by lra. f_equal. rewrite Rmin_left, Rmax_right; lra.
Qed.
Lemma pp_thresh : forall t d, 0 <= t -> pp_point t false (floats (repeat t d)) = floats (repeat t d).
Proof.
  intros t d Ht. unfold pp_point, floats. rewrite !map_repeat. f_equal. unfold pp_default, nan_to_num.
  rewrite np_clip_fin by lra. f_equal. rewrite Rmin_left, Rmax_right; lra.
Qed.

Theorem dead_for_ever : forall f k t b partial cat ks save d s log o s1 s' kk m xr xb a, 0 <= t ->
  let c := cbo_cfg f k (pp_point t false) NoCorr b partial cat ks save in
  exec c s log -> perms_valid o s -> finite_draws d o -> finite_alpha s -> finite_parameters s -> k <> NConst -> b = s_N s \/ partial = false ->
  nth_error (s_active s) kk = Some m -> nth_error (s_x s) m = Some xr -> (forall v, In v xr -> length v = d) ->
  nth_error (s_alpha s) m = Some [Fin a] -> 0 < a -> takeM xr (run_sel c o s m) = Ok xb -> undefined_mean (map f xb) ->
  step c o s = Ok s1 -> later c d s1 s' -> all_at s' m (repeat t d).
Proof.
  intros f k t b partial cat ks save d s log o s1 s' kk m xr xb a Ht c E P HD HA HP Hk Hf Hkk Hx Hl Ha Ha0 HB HU HS HL.
  assert (A1 : all_at s1 m (repeat t d)). { eapply dead_full; eauto. apply pp_nan; auto. }
  assert (HL1 : later c d s s1). { eapply la_step; eauto. constructor. }
  destruct (later_keep f k _ b partial cat ks save s log d s1 E HA HP HL1) as ((l & E1) & A2 & P2 & _).
  apply (dead_stays f k _ b partial cat ks save s1 l m (repeat t d) s' E1 A2 P2 Hk); rewrite ?repeat_length; auto; [apply pp_thresh|apply pp_nan]; auto.
Qed.
