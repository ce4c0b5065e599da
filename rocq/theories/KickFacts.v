(** * Independent noise of collapsed runs: proofs *)
From Coq Require Import String List Arith Bool Lia.
From Verif Require Import Scalar ScalarFacts Np NpFacts State Pdyn PdynFacts PdynStep PdynRun PdynOk Exec BcFacts Variant VarSpec VarFacts VarMove KickNoise KickSpec.
Import ListNotations.
Open Scope nat_scope.
Open Scope list_scope.

Section KickFacts.
  Context {K V : Type} {O : KOps K}.
  Notation F := (fl K).
  Notation st := (st K V).
  Notation cfg := (cfg K V).
  Notation orc := (orc V).

  Lemma cxd_char : forall (p : kpar K V) (c : cfg) x cp, cons_shape (length x) cp ->
    exists l, cxd p c x cp = Ok l /\ length l = length x /\
      forall m row, nth_error x m = Some row -> exists q, point_of cp m = Some q /\
        nth_error l m = Some (mean_sq (k_sq p) (c_vsub c) (k_dim p) row q).
  Proof.
    intros p c x cp [H1 H2].
    assert (Hfs : forall row q, fsum (map (k_sq p) (map (fun a => c_vsub c a q) row)) = fold_right (fun v a => fadd (k_sq p (c_vsub c v q)) a) (Fin k0) row).
    { unfold fsum. induction row; cbn; intros; auto. rewrite IHrow; auto. }
    destruct (Nat.eq_dec (length cp) 1) as [E1|E1].
    - destruct cp as [|r [|]]; try discriminate. destruct (H1 r (or_introl eq_refl)) as [q ->].
      eexists. split.
      { unfold cxd, bc2. rewrite bpairs_one_r. cbn [bind]. rewrite mapM_map. cbn [fst snd].
        rewrite (mapM_ext _ _ _ (fun row => Ok (map (fun a => c_vsub c a q) row))).
        2:{ intros. rewrite bpairs_one_r. cbn [bind]. rewrite map_map. reflexivity. }
        rewrite mapM_pure. cbn [bind]. rewrite map_map. reflexivity. }
      split. { rewrite map_length. auto. }
      intros m row Hr. exists q. split; [reflexivity|]. rewrite nth_error_map, Hr. cbn [option_map]. unfold mean_sq. rewrite Hfs, map_length. auto.
    - destruct H2 as [H2|H2]; [|contradiction].
      eexists. split.
      { unfold cxd. rewrite (bc2_rows _ _ _ (c_vsub c) x cp); [cbn [bind]; reflexivity|auto|].
        intros k a b _ Hb. apply nth_error_In in Hb. destruct (H1 _ Hb) as [q ->]. auto. }
      split. { rewrite map_length, map2_length. lia. }
      intros m row Hr. destruct (nth_error_lt_Some _ cp m) as [r Hc]. { rewrite H2. eapply nth_error_lt; eauto. }
      destruct (H1 r (nth_error_In _ _ Hc)) as [q ->]. exists q. split.
      { unfold point_of. destruct (Nat.eqb_spec (length cp) 1); [contradiction|]. rewrite Hc. auto. }
      rewrite nth_error_map, map2_nth, Hr, Hc. cbn [option_map rowop]. unfold mean_sq. rewrite Hfs, map_length. auto.
  Qed.

  (** the selected runs are the collapsed ones *)
  Lemma selected_char : forall (p : kpar K V) (c : cfg) x cp, cons_shape (length x) cp ->
    exists l, cxd p c x cp = Ok l /\ forall m, In m (np_where (map (fun v => fltb v (k_eps p)) l)) <-> collapsed p c cp x m.
  Proof.
    intros p c x cp H. destruct (cxd_char p c x cp H) as (l & E & L & Hl). exists l. split; auto.
    intros m. rewrite np_where_spec, nth_error_map. split.
    - destruct (nth_error l m) as [v|] eqn:Ev; [|discriminate]. cbn [option_map]. intros [= Hv].
      destruct (nth_error_lt_Some _ x m) as [row Hr]. { rewrite <- L. eapply nth_error_lt; eauto. }
      destruct (Hl m row Hr) as (q & Hq & Hm). rewrite Ev in Hm. injection Hm as ->. exists row, q. auto.
    - intros (row & q & Hr & Hq & Hv). destruct (Hl m row Hr) as (q' & Hq' & Hm). rewrite Hm. cbn [option_map]. rewrite Hq in Hq'. injection Hq' as <-. rewrite Hv. auto.
  Qed.

  Lemma kick_length : forall p (c : cfg) dt z idx (x : arr V), length (kick p c dt z idx x) = length x.
  Proof. intros. apply mapi_length. Qed.
  Lemma kick_rect : forall p (c : cfg) dt z idx (x : arr V) M N, rect M N x -> rect M N (kick p c dt z idx x).
  Proof.
    intros p c dt z idx x M N [H1 H2]. split. rewrite kick_length; auto. intros k row Hk. unfold kick in Hk. rewrite mapi_nth in Hk.
    destruct (nth_error x k) as [r|] eqn:Er; [|discriminate]. injection Hk as <-. specialize (H2 _ _ Er).
    destruct (last_index k idx); auto. rewrite mapi_length. auto.
  Qed.

  (** when the loop is left no run is collapsed, runs that were not collapsed are as before, all others have only received noise *)
  Theorem kick_exit : forall fuel p (c : cfg) dt z i x cp x', cons_shape (length x) cp -> kick_loop fuel p c dt z i x cp = Some (Ok x') ->
    length x' = length x /\ (forall m, ~ collapsed p c cp x' m) /\
    (forall m, ~ collapsed p c cp x m -> nth_error x' m = nth_error x m) /\
    (forall m row row', nth_error x m = Some row -> nth_error x' m = Some row' -> kicked (k_inc p (k_sig p) dt) (c_vadd c) z i row row').
  Proof.
    intros fuel. induction fuel as [|f IH]; intros p c dt z i x cp x' HS H; destruct (selected_char p c x cp HS) as (l & E & Hw); cbn [kick_loop] in H; rewrite E in H;
      destruct (np_where (map (fun v => fltb v (k_eps p)) l)) as [|i0 idx] eqn:Ew; try discriminate.
    - injection H as <-. split; auto. split. { intros m Hm. apply Hw in Hm. auto. } split; auto.
      intros m row row' H1 H2. rewrite H1 in H2. injection H2 as <-. constructor.
    - injection H as <-. split; auto. split. { intros m Hm. apply Hw in Hm. auto. } split; auto.
      intros m row row' H1 H2. rewrite H1 in H2. injection H2 as <-. constructor.
    - set (y := kick p c dt (z i) (i0 :: idx) x) in *. apply IH in H. 2:{ unfold y. rewrite kick_length. auto. }
      destruct H as (L & Hx & Hu & Hk). unfold y in L. rewrite kick_length in L. split; auto. split; auto.
      assert (Hy : forall m row, nth_error x m = Some row -> nth_error y m = Some (match last_index m (i0 :: idx) with
                       | Some j => mapi (fun n v => c_vadd c v (k_inc p (k_sig p) dt (z i j n))) row | None => row end)).
      { intros m row Hm. unfold y, kick. rewrite mapi_nth, Hm. auto. }
      assert (Hun : forall m, ~ collapsed p c cp x m -> nth_error y m = nth_error x m).
      { intros m Hm. assert (Hni : ~ In m (i0 :: idx)) by (rewrite Hw; auto). apply last_index_None in Hni.
        unfold y, kick. rewrite mapi_nth. destruct (nth_error x m); auto. cbn [option_map]. rewrite Hni. auto. }
      split.
      + intros m Hm. rewrite Hu; auto. intros (row & q & H1 & H2 & H3). apply Hm. exists row, q. rewrite Hun in H1; auto.
      + intros m row row' H1 H2. pose proof (Hy m row H1) as H3. specialize (Hk _ _ _ H3 H2).
        destruct (last_index m (i0 :: idx)) as [j|] eqn:EJ; [eapply kd_step; exact Hk|].
        assert (HN : ~ collapsed p c cp x m) by (rewrite <- Hw; apply last_index_None; auto).
        rewrite Hu, (Hun m HN), H1 in H2. { injection H2 as <-. constructor. }
        intros (rw & q & G1 & G2 & G3). apply HN. exists rw, q. rewrite Hun in G1; auto.
  Qed.

  Theorem kick_rect_exit : forall fuel p (c : cfg) dt z i x cp x' M N, kick_loop fuel p c dt z i x cp = Some (Ok x') -> rect M N x -> rect M N x'.
  Proof.
    intros fuel. induction fuel as [|f IH]; intros p c dt z i x cp x' M N H R; cbn [kick_loop] in H; destruct (cxd p c x cp) as [l|]; try discriminate;
      destruct (np_where _) as [|i0 idx]; try discriminate; try (injection H as <-; auto; fail).
    eapply IH; eauto. apply kick_rect; auto.
  Qed.

  (** nothing happens if no run is collapsed *)
  Theorem kick_idle : forall fuel p (c : cfg) dt z i x cp, cons_shape (length x) cp -> (forall m, ~ collapsed p c cp x m) -> kick_loop fuel p c dt z i x cp = Some (Ok x).
  Proof.
    intros fuel p c dt z i x cp HS H. destruct (selected_char p c x cp HS) as (l & E & Hw). destruct fuel; cbn [kick_loop]; rewrite E;
      (destruct (np_where _) as [|i0 idx] eqn:Ew; [auto|]; exfalso; apply (H i0); apply Hw; rewrite ?Ew; left; auto).
  Qed.

  Lemma mapi_id : forall A (f : nat -> A -> A) l, (forall n a, f n a = a) -> mapi f l = l.
  Proof. intros. apply nth_error_ext. intros k. rewrite mapi_nth. destruct (nth_error l k); cbn; auto. rewrite H; auto. Qed.

  (** if the increments vanish (dt = 0) and a run is collapsed, the loop is never left *)
  Theorem kick_stuck : forall fuel p (c : cfg) dt z i x cp m, cons_shape (length x) cp -> collapsed p c cp x m ->
    (forall v w, c_vadd c v (k_inc p (k_sig p) dt w) = v) -> kick_loop fuel p c dt z i x cp = None.
  Proof.
    intros fuel. induction fuel as [|f IH]; intros p c dt z i x cp m HS Hm Hid; destruct (selected_char p c x cp HS) as (l & E & Hw); cbn [kick_loop]; rewrite E;
      (destruct (np_where _) as [|i0 idx] eqn:Ew; [exfalso; apply Hw in Hm; exact Hm|]); auto.
    assert (Hy : kick p c dt (z i) (i0 :: idx) x = x).
    { unfold kick. apply mapi_id. intros k row. destruct (last_index k (i0 :: idx)); auto. apply mapi_id. intros. apply Hid. }
    rewrite Hy. eapply IH; eauto.
  Qed.

  (** draws that carry every particle far enough end the loop after one pass *)
  Theorem kick_enough : forall fuel p (c : cfg) dt z i x cp, cons_shape (length x) cp ->
    (forall idx, (forall m, In m idx <-> collapsed p c cp x m) -> forall m, ~ collapsed p c cp (kick p c dt (z i) idx x) m) ->
    exists x', kick_loop (S fuel) p c dt z i x cp = Some (Ok x').
  Proof.
    intros fuel p c dt z i x cp HS H. destruct (selected_char p c x cp HS) as (l & E & Hw). cbn [kick_loop]. rewrite E.
    destruct (np_where _) as [|i0 idx] eqn:Ew; eauto. eexists. apply kick_idle. rewrite kick_length; auto. apply H. auto.
  Qed.

  (** more fuel does not change a result *)
  Theorem kick_fuel : forall fuel fuel' p (c : cfg) dt z i x cp r, kick_loop fuel p c dt z i x cp = Some r -> fuel <= fuel' -> kick_loop fuel' p c dt z i x cp = Some r.
  Proof.
    intros fuel. induction fuel as [|f IH]; intros fuel' p c dt z i x cp r H Hle.
    - destruct fuel'; auto. cbn [kick_loop] in *. destruct (cxd p c x cp); auto. destruct (np_where _); auto. discriminate.
    - destruct fuel' as [|f']; [lia|]. cbn [kick_loop] in *. destruct (cxd p c x cp); auto. destruct (np_where _); auto. apply IH; auto. lia.
  Qed.
End KickFacts.
