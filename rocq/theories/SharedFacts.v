(** * Facts about shared tracker lists *)
From Coq Require Import String List Arith Bool Lia.
From Verif Require Import Scalar Np NpFacts State Pdyn Exec PdynFacts PdynStep PdynOk StepFrame Shared SharedSpec.
Import ListNotations.
Open Scope nat_scope.
Open Scope list_scope.

Section Facts.
  Context {K V : Type} {O : KOps K}.
  Notation st := (st K V).
  Notation cfg := (cfg K V).
  Notation orc := (orc V).

  Definition key (t : trk) : string :=
    match t with TX => "x" | TUpd => "update_norm" | TEnergy => "energy" | TCons => "consensus" | TDriftMean => "drift_mean" | TDrift => "drift" | TDefault n _ => n end%string.
  Definition fed (n : string) (ts : list trk) : nat := length (filter (fun t => String.eqb n (key t)) ts).
  Definition no_default (n : string) (ts : list trk) : Prop := forall b, ~ In (TDefault n b) ts.
  Definition val (c : cfg) (n : string) (s : st) : hval K V :=
    if String.eqb n "x" then HX (s_x s) else if String.eqb n "update_norm" then HUpd (s_udiff s) else if String.eqb n "energy" then HEnergy (s_energy s)
    else if String.eqb n "consensus" then HCons (s_cons s) else if String.eqb n "drift_mean" then HMean (map (c_dmean c) (match s_drift s with Some d => d | None => [] end)) else HDrift (s_drift s).

  Lemma own_cases : forall n, own_key n -> n = "x"%string \/ n = "update_norm"%string \/ n = "energy"%string \/ n = "consensus"%string \/ n = "drift_mean"%string \/ n = "drift"%string.
  Proof. intros n H. cbn in H. intuition. Qed.

  Lemma append_key : forall k v (s s' : st) n, hist_append k v s = Ok s' ->
    hist_get n (s_hist s') = option_map (fun l => l ++ (if String.eqb n k then [v] else [])) (hist_get n (s_hist s)).
  Proof.
    intros k v s s' n H. apply hist_append_frame in H. destruct H as (l & El & ->). sst. rewrite hist_get_set. destruct (String.eqb_spec n k) as [->|]. rewrite El. auto.
    destruct (hist_get n (s_hist s)); cbn; rewrite ?app_nil_r; auto.
  Qed.
  Lemma nil_key : forall o : option (list (hval K V)), o = option_map (fun l => l ++ []) o.
  Proof. intros [l|]; cbn; rewrite ?app_nil_r; auto. Qed.

  Lemma val_hist : forall c n h (s : st), val c n (set_hist h s) = val c n s.
  Proof. intros. unfold val. sst. auto. Qed.

  Lemma update_one : forall (c : cfg) t (s : st) t' s' n, own_key n -> trk_update c t s = Ok (t', s') -> (forall b, t <> TDefault n b) ->
    key t' = key t /\ (forall b, t' <> TDefault n b) /\ same_kind t' t /\
    hist_get n (s_hist s') = option_map (fun l => l ++ (if String.eqb n (key t) then [val c n s] else [])) (hist_get n (s_hist s)) /\
    (String.eqb n (key t) = true -> hist_get n (s_hist s) <> None).
  Proof.
    intros c t s t' s' n Hn H Hd.
    assert (G : forall k v s1, hist_append k v s = Ok s1 -> (n = k -> v = val c n s) ->
      hist_get n (s_hist s1) = option_map (fun l => l ++ (if String.eqb n k then [val c n s] else [])) (hist_get n (s_hist s)) /\ (String.eqb n k = true -> hist_get n (s_hist s) <> None)).
    { intros k v s1 E Hv. split. rewrite (append_key _ _ _ _ n E). destruct (String.eqb_spec n k); auto. rewrite Hv; auto.
      intros E'. apply String.eqb_eq in E'. subst. apply hist_append_frame in E. destruct E as (l & -> & _). discriminate. }
    destruct t; cbn [trk_update key] in *.
    - apply bind_ok in H. destruct H as (s1 & E & H). inversion H; subst. split; auto. split; [discriminate|]. split; [reflexivity|]. apply (G _ _ _ E). intros ->. reflexivity.
    - apply bind_ok in H. destruct H as (s1 & E & H). inversion H; subst. split; auto. split; [discriminate|]. split; [reflexivity|]. apply (G _ _ _ E). intros ->. reflexivity.
    - apply bind_ok in H. destruct H as (s1 & E & H). inversion H; subst. split; auto. split; [discriminate|]. split; [reflexivity|]. apply (G _ _ _ E). intros ->. reflexivity.
    - apply bind_ok in H. destruct H as (s1 & E & H). inversion H; subst. split; auto. split; [discriminate|]. split; [reflexivity|]. apply (G _ _ _ E). intros ->. reflexivity.
    - destruct (s_drift s) as [d|] eqn:Ed; [|discriminate]. apply bind_ok in H. destruct H as (s1 & E & H). inversion H; subst. split; auto. split; [discriminate|]. split; [reflexivity|]. apply (G _ _ _ E).
      intros ->. unfold val. cbn. rewrite Ed. reflexivity.
    - apply bind_ok in H. destruct H as (s1 & E & H). apply bind_ok in H. destruct H as (s2 & E' & H). inversion H; subst. split; auto. split; [discriminate|]. split; [reflexivity|].
      destruct (G _ _ _ E) as [G1 G2]. { intros ->. reflexivity. } split; auto. rewrite (append_key _ _ _ _ n E'). rewrite G1.
      assert (Np : String.eqb n "particle_idx" = false). { destruct (own_cases n Hn) as [->|[->|[->|[->|[->| ->]]]]]; reflexivity. } rewrite Np. rewrite <- nil_key. auto.
    - assert (Nn : String.eqb n name = false). { apply String.eqb_neq. intros ->. apply (Hd tracking). reflexivity. } rewrite Nn.
      destruct tracking.
      + destruct (attr_of name s).
        * apply bind_ok in H. destruct H as (s1 & E & H). inversion H; subst. split; auto. split; [auto|]. split; [reflexivity|]. rewrite (append_key _ _ _ _ n E), Nn. split; [auto|discriminate].
        * inversion H; subst. split; auto. split. { intros b E. injection E as -> _. apply (Hd true). reflexivity. } split; [reflexivity|]. split; [apply nil_key|discriminate].
      + inversion H; subst. split; auto. split; [auto|]. split; [reflexivity|]. split; [apply nil_key|discriminate].
  Qed.
  Lemma kind_one : forall (c : cfg) t (s : st) t' s', trk_update c t s = Ok (t', s') -> same_kind t' t.
  Proof.
    intros c t s t' s' H. destruct t; cbn [trk_update] in *; try (apply bind_ok in H; destruct H as (s1 & E & H); inversion H; subst; reflexivity).
    - destruct (s_drift s); [|discriminate]. apply bind_ok in H; destruct H as (s1 & E & H); inversion H; subst; reflexivity.
    - apply bind_ok in H; destruct H as (s1 & E & H). apply bind_ok in H; destruct H as (s2 & E2 & H). inversion H; subst; reflexivity.
    - destruct tracking. destruct (attr_of name s). apply bind_ok in H; destruct H as (s1 & E & H); inversion H; subst; reflexivity. inversion H; subst; reflexivity. inversion H; subst; reflexivity.
  Qed.
  Lemma kind_all : forall (c : cfg) ts (s : st) ts' s', trks_update c ts s = Ok (ts', s') -> Forall2 same_kind ts' ts.
  Proof.
    intros c ts. induction ts as [|t ts IH]; intros s ts' s' H; cbn [trks_update] in H. inversion H; constructor.
    apply bind_ok in H. destruct H as ([t' s1] & E & H). cbn [fst snd] in H. apply bind_ok in H. destruct H as ([ts1 s2] & E2 & H). cbn [fst snd] in H. inversion H; subst. constructor; eauto using kind_one.
  Qed.
  Lemma update_all : forall (c : cfg) n, own_key n -> forall ts (s : st) ts' s', trks_update c ts s = Ok (ts', s') -> no_default n ts ->
    hist_get n (s_hist s') = option_map (fun l => l ++ repeat (val c n s) (fed n ts)) (hist_get n (s_hist s)) /\ (fed n ts <> 0 -> hist_get n (s_hist s) <> None).
  Proof.
    intros c n Hn ts. induction ts as [|t ts IH]; intros s ts' s' H Hd; cbn [trks_update] in H.
    - inversion H; subst. split. apply nil_key. intros HF. exfalso. apply HF. reflexivity.
    - apply bind_ok in H. destruct H as ([t' s1] & E & H). cbn [fst snd] in H. apply bind_ok in H. destruct H as ([ts1 s2] & E2 & H). cbn [fst snd] in H. inversion H; subst. clear H.
      destruct (update_one _ _ _ _ _ n Hn E) as (A1 & A2 & A3 & A4 & A5). { intros b ->. apply (Hd b). left; auto. }
      destruct (IH _ _ _ E2) as (B1 & B2). { intros b HI. apply (Hd b). right; auto. }
      pose proof (trk_update_frame _ _ _ _ _ E) as (h & Eh). unfold fed in *. cbn [filter].
      rewrite B1, A4. replace (val c n s1) with (val c n s) by (rewrite Eh; symmetry; apply val_hist).
      destruct (String.eqb n (key t)) eqn:Ek; cbn [length repeat].
      + specialize (A5 eq_refl). destruct (hist_get n (s_hist s)) as [l|]; [|congruence]. cbn. rewrite <- app_assoc. split; [auto|discriminate].
      + destruct (hist_get n (s_hist s)) as [l|]; cbn in *. rewrite app_nil_r. split; [auto|discriminate]. split; auto. intros HF. rewrite A4 in B2. exact (B2 HF).
  Qed.

  (** ** a step *)
  Lemma step_track : forall (c : cfg) (o : orc) (s s' : st), step c o s = Ok s' ->
    exists s4 s5, track c s4 = Ok s5 /\ s_tracks s4 = s_tracks s /\ s_hist s4 = s_hist s /\ s_it s4 = s_it s /\ s_save s4 = s_save s /\ s_tracks s' = s_tracks s5 /\ s_hist s' = s_hist s5.
  Proof.
    intros c o s s' H. unfold step in H. apply bind_ok in H. destruct H as (s1 & E1 & H). apply bind_ok in H. destruct H as (s2 & E2 & E3).
    apply pre_step_frame in E1. destruct E1 as (ci & pi & ind & xo & ->). apply cbo_step_frame in E2. destruct E2 as (x & d & cep & e & cp & fc & nf & ->).
    apply post_step_frame in E3. destruct E3 as (x' & ud & fm & bcp & bce & be & bp & s5 & Et & ->). eexists _, s5. split; [exact Et|]. sst. auto 8.
  Qed.
  Lemma step_fed : forall (c : cfg) (o : orc) (s s' : st) n, own_key n -> step c o s = Ok s' -> no_default n (s_tracks s) -> s_it s mod s_save s = 0 -> fed n (s_tracks s) <> 0 ->
    exists old v, hist_get n (s_hist s) = Some old /\ hist_get n (s_hist s') = Some (old ++ repeat v (fed n (s_tracks s))).
  Proof.
    intros c o s s' n Hn H Hd Hit HF. apply step_track in H. destruct H as (s4 & s5 & Et & H1 & H2 & H3 & H4 & H5 & H6). unfold track in Et. rewrite H6.
    destruct (s_save s4) as [|sv] eqn:Es; [discriminate|]. rewrite H3 in Et. rewrite H4 in Et. rewrite Hit in Et. cbn [Nat.eqb] in Et.
    apply bind_ok in Et. destruct Et as ([ts' s6] & Eu & Et). cbn [fst snd] in Et. injection Et as <-. sst. rewrite H1 in Eu.
    destruct (update_all c n Hn _ _ _ _ Eu Hd) as (U1 & U2). rewrite H2 in *. destruct (hist_get n (s_hist s)) as [old|] eqn:Eo.
    - exists old, (val c n s4). split; auto.
    - exfalso. apply (U2 HF). reflexivity.
  Qed.
  Lemma step_kinds : forall (c : cfg) (o : orc) (s s' : st), step c o s = Ok s' -> Forall2 same_kind (s_tracks s') (s_tracks s).
  Proof.
    intros c o s s' H. apply step_track in H. destruct H as (s4 & s5 & Et & H1 & H2 & H3 & H4 & H5 & H6). rewrite H5, <- H1. unfold track in Et.
    destruct (s_save s4); [discriminate|]. destruct (_ =? 0).
    - apply bind_ok in Et. destruct Et as ([ts' s6] & Eu & Et). cbn [fst snd] in Et. injection Et as <-. sst. eapply kind_all; eauto.
    - injection Et as <-. clear. induction (s_tracks s4) as [|t l IH]; constructor; auto. destruct t; reflexivity.
  Qed.

  (** ** families *)
  Lemma same_kind_refl : forall t, same_kind t t.
  Proof. destruct t; reflexivity. Qed.
  Lemma same_kind_trans : forall a b c, same_kind a b -> same_kind b c -> same_kind a c.
  Proof. intros [] [] [] H1 H2; cbn in *; try congruence; try discriminate. Qed.
  Lemma kinds_refl : forall l, Forall2 same_kind l l.
  Proof. induction l; constructor; auto using same_kind_refl. Qed.
  Lemma kinds_trans : forall a b c, Forall2 same_kind a b -> Forall2 same_kind b c -> Forall2 same_kind a c.
  Proof. intros a b c H. revert c. induction H; intros c Hc; inversion Hc; subst; constructor; eauto using same_kind_trans. Qed.

  Theorem family_tracks : forall E names k L (D : list st), family E names k L D ->
    Forall2 same_kind L (E ++ concat (repeat (map known_track names) k)) /\ length D = k.
  Proof.
    intros E names k L D H. induction H as [|k L D c x0 chk al sg la dt perm0 save w H IH HB|k L D c o i w H IH HU].
    - cbn. rewrite app_nil_r. split; auto. apply kinds_refl.
    - unfold build in HB. apply bind_ok in HB. destruct HB as (s & Ei & HB). injection HB as <-. cbn [fst snd]. destruct IH as [IH1 IH2]. split; [|rewrite app_length; cbn; lia].
      unfold init in Ei. apply bind_ok in Ei. destruct Ei as (bp & _ & Ei). match type of Ei with Ok (init_history _ _ _ ?s1) = _ => set (s0 := s1) in * end. clearbody s0.
      destruct (init_history_char (Some names) (fst (L, D)) save s0) as (ts & h & E' & _ & Ets). injection Ei as <-. cbn [fst] in *. rewrite E'. sst. rewrite Ets.
      replace (concat (repeat (map known_track names) (S k))) with (concat (repeat (map known_track names) k) ++ map known_track names).
      + rewrite app_assoc. apply Forall2_app; auto. apply kinds_refl.
      + clear. induction k; cbn [repeat concat]. rewrite app_nil_r; auto. rewrite <- app_assoc, IHk. auto.
    - unfold use in HU. cbn [fst snd] in HU. destruct (nth_error D i) as [s|] eqn:En; [|discriminate]. apply bind_ok in HU. destruct HU as (s' & Es & HU). injection HU as <-. cbn [fst snd].
      destruct IH as [IH1 IH2]. split; [|rewrite mapi_length; auto]. apply step_kinds in Es. sstall. eapply kinds_trans; eauto.
  Qed.

  Lemma key_kind : forall a b, same_kind a b -> key a = key b.
  Proof. intros [] [] H; cbn in *; try discriminate; auto. Qed.
  Lemma fed_kinds : forall n a b, Forall2 same_kind a b -> fed n a = fed n b.
  Proof. intros n a b H. unfold fed. induction H; auto. cbn [filter]. rewrite (key_kind _ _ H). destruct (String.eqb n (key y)); cbn [length]; auto. Qed.
  Lemma fed_app : forall n a b, fed n (a ++ b) = fed n a + fed n b.
  Proof. intros. unfold fed. rewrite filter_app, app_length. auto. Qed.
  Lemma key_known : forall n, key (known_track n) = n.
  Proof.
    intros n. unfold known_track. destruct (String.eqb_spec n "consensus"); [subst; auto|]. destruct (String.eqb_spec n "drift_mean"); [subst; auto|]. destruct (String.eqb_spec n "drift"); [subst; auto|].
    destruct (String.eqb_spec n "update_norm"); [subst; auto|]. destruct (String.eqb_spec n "energy"); [subst; auto|]. destruct (String.eqb_spec n "x"); [subst; auto|]. reflexivity.
  Qed.
  Lemma fed_names : forall n names, fed n (map known_track names) = times n names.
  Proof. intros n names. unfold fed, times. induction names; auto. cbn [map filter]. rewrite key_known. destruct (String.eqb n a); cbn [length]; auto. Qed.
  Lemma fed_repeat : forall n names k, fed n (concat (repeat (map known_track names) k)) = k * times n names.
  Proof. intros n names k. induction k; auto. cbn [repeat concat]. rewrite fed_app, IHk, fed_names. lia. Qed.
  Lemma no_default_kinds : forall n a b, Forall2 same_kind a b -> no_default n b -> no_default n a.
  Proof.
    intros n a b H Hb t Ha. apply In_nth_error in Ha. destruct Ha as (i & Hi). revert i Hi. induction H; intros i Hi. destruct i; discriminate.
    destruct i; cbn in Hi. injection Hi as ->. destruct y; cbn in H; try discriminate. subst. apply (Hb tracking). left; auto. apply (IHForall2) with i; auto. intros b' HI. apply (Hb b'). right; auto.
  Qed.
  Lemma no_default_known : forall n names, own_key n -> no_default n (map known_track names).
  Proof.
    intros n names Hn b HI. apply in_map_iff in HI. destruct HI as (m & E & _). assert (Em : m = n) by (rewrite <- (key_known m), E; auto). subst m.
    destruct (own_cases n Hn) as [->|[->|[->|[->|[->| ->]]]]]; discriminate.
  Qed.
  Lemma no_default_repeat : forall n names k, own_key n -> no_default n (concat (repeat (map known_track names) k)).
  Proof.
    intros n names k Hn. induction k; intros b HI; [contradiction|]. cbn [repeat concat] in HI. apply in_app_or in HI. destruct HI as [HI|HI]; [eapply no_default_known; eauto|eapply IHk; eauto].
  Qed.

  (** a recording step of any of the k dynamics appends k times as many entries as its names ask for *)
  Theorem family_duplicates : forall names k L (D : list st) c o i s s' n, family [] names k L D -> nth_error D i = Some s -> step c o (set_tracks L s) = Ok s' ->
    s_it s mod s_save s = 0 -> own_key n -> In n names ->
    exists old v, hist_get n (s_hist s) = Some old /\ hist_get n (s_hist s') = Some (old ++ repeat v (k * times n names)).
  Proof.
    intros names k L D c o i s s' n HF HD HS Hit Hn HI. destruct (family_tracks _ _ _ _ _ HF) as [HL Hk]. cbn [app] in HL.
    assert (Hk0 : k <> 0). { intros ->. destruct D; [|discriminate]. destruct i; discriminate. }
    assert (EF : fed n L = k * times n names) by (rewrite (fed_kinds _ _ _ HL); apply fed_repeat).
    assert (Ht : times n names <> 0). { unfold times. assert (HI' : In n (filter (String.eqb n) names)) by (apply filter_In; split; auto; apply String.eqb_refl). destruct (filter _ names); [contradiction|discriminate]. }
    destruct (step_fed c o _ s' n Hn HS) as (old & v & H1 & H2); sstall; auto.
    - eapply no_default_kinds; eauto. apply no_default_repeat; auto.
    - rewrite EF. nia.
    - exists old, v. rewrite EF in H2. auto.
  Qed.

  (** a dynamic built earlier from another dictionary with the same list cannot make a recording step any more *)
  Theorem shared_key_error : forall (c : cfg) o L names (s s' : st) n, own_key n -> In n names -> hist_get n (s_hist s) = None -> s_it s mod s_save s = 0 ->
    no_default n L -> step c o (set_tracks (L ++ map known_track names) s) <> Ok s'.
  Proof.
    intros c o L names s s' n Hn HI Hh Hit HL HS. 
    assert (Ht : times n names <> 0). { unfold times. assert (HI' : In n (filter (String.eqb n) names)) by (apply filter_In; split; auto; apply String.eqb_refl). destruct (filter _ names); [contradiction|discriminate]. }
    destruct (step_fed c o _ s' n Hn HS) as (old & v & H1 & H2); sstall; auto; try congruence.
    - intros b HI'. apply in_app_or in HI'. destruct HI' as [HI'|HI']; [eapply HL; eauto|eapply no_default_known; eauto].
    - rewrite fed_app, fed_names. lia.
  Qed.
End Facts.
