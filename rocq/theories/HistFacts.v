(** * The recorded history *)
From Coq Require Import String List Arith Bool Lia.
From Verif Require Import Scalar Np NpFacts State Pdyn PdynFacts PdynStep PdynRun Exec PdynOk StepFrame HistSpec.
Import ListNotations.
Open Scope string_scope.
Open Scope nat_scope.
Open Scope list_scope.

(** ** every [save]-th element *)
Definition sampled {A} (save : nat) (l : list A) : list A :=
  map snd (filter (fun p => fst p mod save =? 0) (combine (seq 0 (length l)) l)).

Lemma combine_snoc : forall A B (l : list A) (l' : list B) a b, length l = length l' ->
  combine (l ++ [a]) (l' ++ [b]) = combine l l' ++ [(a, b)].
Proof. induction l; intros [|b' l'] a0 b0 H; cbn in *; try discriminate; auto. f_equal. auto. Qed.

Lemma sampled_snoc : forall A save (l : list A) a,
  sampled save (l ++ [a]) = sampled save l ++ (if length l mod save =? 0 then [a] else []).
Proof.
  intros. unfold sampled. rewrite app_length. cbn [length]. rewrite Nat.add_1_r, seq_S. cbn [plus].
  rewrite combine_snoc by apply seq_length. rewrite filter_app, map_app. f_equal. cbn.
  destruct (_ =? 0); reflexivity.
Qed.

Definition ceil_div (n k : nat) : nat := (n + k - 1) / k.

Lemma ceil_div_S : forall n k, 1 <= k -> ceil_div (S n) k = ceil_div n k + (if n mod k =? 0 then 1 else 0).
Proof.
  intros n k Hk. unfold ceil_div.
  pose proof (Nat.div_mod n k ltac:(lia)) as E. pose proof (Nat.mod_upper_bound n k ltac:(lia)) as B.
  set (q := n / k) in *. set (r := n mod k) in *.
  destruct (Nat.eqb_spec r 0) as [H|H].
  - replace (S n + k - 1) with (0 + (q + 1) * k) by nia. rewrite Nat.div_add by lia.
    replace (n + k - 1) with (k - 1 + q * k) by nia. rewrite Nat.div_add by lia.
    rewrite (Nat.div_small (k - 1)) by lia. rewrite Nat.div_0_l by lia. lia.
  - replace (S n + k - 1) with (r + (q + 1) * k) by nia. rewrite Nat.div_add by lia.
    replace (n + k - 1) with (r - 1 + (q + 1) * k) by nia. rewrite Nat.div_add by lia.
    rewrite !Nat.div_small by lia. lia.
Qed.

Lemma sampled_length : forall A save (l : list A), 1 <= save -> length (sampled save l) = ceil_div (length l) save.
Proof.
  intros A save l Hs. induction l using rev_ind.
  - cbn. unfold ceil_div. rewrite Nat.div_small; lia.
  - rewrite sampled_snoc, !app_length, IHl. cbn [length]. rewrite Nat.add_1_r, ceil_div_S by auto.
    destruct (_ =? 0); reflexivity.
Qed.

Lemma sampled_nth : forall A save (l : list A) j, 1 <= save -> nth_error (sampled save l) j = nth_error l (j * save).
Proof.
  intros A save l j Hs. revert j. induction l using rev_ind; intros j.
  - cbn. destruct j; cbn; [auto|]. destruct (save + j * save); auto.
  - rewrite sampled_snoc.
    destruct (lt_dec j (length (sampled save l))) as [Hlt|Hge].
    + rewrite nth_error_app1 by auto. rewrite IHl.
      destruct (nth_error_lt_Some _ _ _ Hlt) as [a Ha]. rewrite IHl in Ha.
      rewrite nth_error_app1; auto. eapply nth_error_lt; eauto.
    + rewrite nth_error_app2 by lia.
      assert (HN : nth_error l (j * save) = None). { rewrite <- IHl. apply nth_error_None. lia. }
      apply nth_error_None in HN. rewrite nth_error_app2 by lia.
      rewrite sampled_length in * by auto.
      pose proof (Nat.div_mod (length l) save ltac:(lia)) as E. pose proof (Nat.mod_upper_bound (length l) save ltac:(lia)) as B.
      set (q := length l / save) in *. set (r := length l mod save) in *.
      unfold ceil_div in *. destruct (Nat.eqb_spec r 0) as [H|H].
      * replace (length l + save - 1) with (save - 1 + q * save) in * by nia.
        rewrite Nat.div_add, Nat.div_small in * by lia. cbn [plus] in *.
        destruct (Nat.eq_dec j q) as [->|Hne].
        -- replace (q * save - length l) with 0 by nia. rewrite Nat.sub_diag. reflexivity.
        -- destruct (j - q) as [|d] eqn:Ed; [lia|]. destruct (j * save - length l) as [|d'] eqn:Ed'; [nia|].
           cbn. destruct d, d'; reflexivity.
      * replace (length l + save - 1) with (r - 1 + (q + 1) * save) in * by nia.
        rewrite Nat.div_add, Nat.div_small in * by lia. cbn [plus] in *.
        destruct (j * save - length l) as [|d'] eqn:Ed'; [nia|]. cbn. destruct (j - (q + 1)), d'; reflexivity.
Qed.

Section Hist.
  Context {K V : Type} {O : KOps K}.
  Notation F := (fl K).
  Notation st := (st K V).
  Notation cfg := (cfg K V).
  Notation orc := (orc V).
  Notation hval := (hval K V).

  (** what one tracker appends to key [k] *)
  Definition appended (c : cfg) (t : trk) (k : string) (s : st) : list hval :=
    match t with
    | TX => if String.eqb k "x" then [HX (s_x s)] else []
    | TUpd => if String.eqb k "update_norm" then [HUpd (s_udiff s)] else []
    | TEnergy => if String.eqb k "energy" then [HEnergy (s_energy s)] else []
    | TCons => if String.eqb k "consensus" then [HCons (s_cons s)] else []
    | TDriftMean => if String.eqb k "drift_mean" then
                      match s_drift s with Some d => [HMean (map (c_dmean c) d)] | None => [] end else []
    | TDrift => if String.eqb k "drift" then [HDrift (s_drift s)]
                else if String.eqb k "particle_idx" then [HIdx (s_pidx s)] else []
    | TDefault n true => if String.eqb k n then match attr_of n s with Some v => [v] | None => [] end else []
    | TDefault n false => []
    end.

  Definition next_trk (t : trk) (s : st) : trk :=
    match t with TDefault n true => match attr_of n s with Some _ => t | None => TDefault n false end | _ => t end.

  Lemma attr_of_hist : forall n h (s : st), attr_of n (set_hist h s) = attr_of n s.
  Proof. intros. unfold attr_of. destruct s; reflexivity. Qed.

  Lemma appended_hist : forall (c : cfg) t k h (s : st), appended c t k (set_hist h s) = appended c t k s.
  Proof. intros. destruct t; cbn; auto; rewrite ?attr_of_hist; auto. Qed.
  Lemma next_hist : forall t h (s : st), next_trk t (set_hist h s) = next_trk t s.
  Proof. intros. destruct t; cbn; auto; rewrite ?attr_of_hist; auto. Qed.

  Lemma set_hist_same : forall s : st, set_hist (s_hist s) s = s.
  Proof. destruct s; auto. Qed.

  Lemma trk_update_vals : forall (c : cfg) t (s : st) t' s', trk_update c t s = Ok (t', s') ->
    t' = next_trk t s /\ exists h, s' = set_hist h s /\
    forall k l, hist_get k (s_hist s) = Some l -> hist_get k h = Some (l ++ appended c t k s).
  Proof.
    intros c t s t' s' H.
    assert (A : forall k0 v (q : st) q', hist_append k0 v q = Ok q' -> exists h, q' = set_hist h q /\
       forall k l, hist_get k (s_hist q) = Some l -> hist_get k h = Some (l ++ if String.eqb k k0 then [v] else [])).
    { intros k0 v q q' Hq. apply hist_append_frame in Hq. destruct Hq as (l0 & E & ->). eexists. split; [reflexivity|].
      intros k l Hl. rewrite hist_get_set. destruct (String.eqb_spec k k0).
      - subst. rewrite E in Hl. inversion Hl; subst. auto.
      - rewrite app_nil_r. auto. }
    destruct t; cbn [trk_update] in H.
    - apply bind_ok in H. destruct H as (s1 & E & H). apply A in E. destruct E as (h & -> & Hh). inversion H. split; auto. eauto.
    - apply bind_ok in H. destruct H as (s1 & E & H). apply A in E. destruct E as (h & -> & Hh). inversion H. split; auto. eauto.
    - apply bind_ok in H. destruct H as (s1 & E & H). apply A in E. destruct E as (h & -> & Hh). inversion H. split; auto. eauto.
    - apply bind_ok in H. destruct H as (s1 & E & H). apply A in E. destruct E as (h & -> & Hh). inversion H. split; auto. eauto.
    - cbn [appended]. destruct (s_drift s); [|discriminate].
      apply bind_ok in H. destruct H as (s1 & E & H). apply A in E. destruct E as (h & -> & Hh). inversion H. split; auto. eauto.
    - apply bind_ok in H. destruct H as (s1 & E & H). apply A in E. destruct E as (h & -> & Hh).
      apply bind_ok in H. destruct H as (s2 & E & H). apply A in E. destruct E as (h2 & -> & Hh2).
      inversion H. split; auto. exists h2. split; [destruct s; auto|]. intros k l Hl.
      rewrite (Hh2 k _ (Hh k l Hl)). cbn [appended]. rewrite <- app_assoc.
      destruct (String.eqb_spec k "drift"); auto. subst. reflexivity.
    - cbn [appended next_trk]. destruct tracking.
      + destruct (attr_of name s).
        * apply bind_ok in H. destruct H as (s1 & E & H). apply A in E. destruct E as (h0 & -> & Hh). inversion H. split; auto. eauto.
        * inversion H; subst. split; auto. exists (s_hist s'). rewrite set_hist_same. split; auto. intros k l Hl.
          destruct (String.eqb k name); rewrite app_nil_r; auto.
      + inversion H; subst. split; auto. exists (s_hist s'). rewrite set_hist_same. split; auto. intros k l Hl.
        rewrite app_nil_r; auto.
  Qed.

  Lemma trks_update_vals : forall (c : cfg) ts (s : st) ts' s', trks_update c ts s = Ok (ts', s') ->
    ts' = map (fun t => next_trk t s) ts /\ exists h, s' = set_hist h s /\
    forall k l, hist_get k (s_hist s) = Some l -> hist_get k h = Some (l ++ flat_map (fun t => appended c t k s) ts).
  Proof.
    intros c ts. induction ts; intros s ts' s' H; cbn [trks_update] in H.
    - inversion H; subst. split; auto. exists (s_hist s'). rewrite set_hist_same. split; auto.
      intros. cbn. rewrite app_nil_r. auto.
    - apply bind_ok in H. destruct H as ([t1 s1] & E & H). apply trk_update_vals in E. destruct E as (-> & h & -> & Hh).
      cbn [fst snd] in H. apply bind_ok in H. destruct H as ([ts1 s2] & E & H). apply IHts in E.
      destruct E as (-> & h2 & -> & Hh2). inversion H; subst. cbn [fst snd map flat_map]. split.
      { rewrite (map_ext _ (fun t => next_trk t s)); auto using next_hist. }
      exists h2. split; [destruct s; auto|]. intros k l Hl.
      rewrite (Hh2 k _ (Hh k l Hl)). rewrite <- app_assoc.
      rewrite (flat_map_ext _ (fun t => appended c t k s)); auto using appended_hist.
  Qed.

  (** the trackers named by the user: one per name *)
  Lemma known_track_appended : forall (c : cfg) n k (s : st), n <> k ->
    ~ (n = "drift" /\ k = "particle_idx") -> appended c (known_track n) k s = [].
  Proof.
    intros c n k s Hn Hp. unfold known_track.
    repeat (match goal with |- context [String.eqb n ?b] => destruct (String.eqb_spec n b) end; [subst; cbn [appended];
      repeat (match goal with |- context [String.eqb k ?b] => destruct (String.eqb_spec k b) end); subst; try tauto; try congruence|]).
    cbn [appended]. destruct (String.eqb_spec k n); congruence.
  Qed.

  Definition live (t : trk) : bool := match t with TDefault _ b => b | _ => true end.

  (** the trackers in use after some steps: one per name, default trackers possibly off *)
  Definition trk_for (n : string) (t : trk) : Prop := t = known_track n \/ (t = TDefault n false /\ ~ In n known_names).

  Lemma attr_known : forall n (s : st), known_track n = TDefault n true ->
    (In n known_names <-> attr_of n s <> None).
  Proof.
    intros n s Hk. unfold known_track in Hk.
    repeat (match type of Hk with context [String.eqb n ?b] => destruct (String.eqb_spec n b) end; [discriminate|]).
    unfold attr_of, known_names.
    repeat (match goal with |- context [String.eqb n ?b] => destruct (String.eqb_spec n b) as [->|] end;
            [split; [discriminate|intros; cbn; tauto]|]).
    split; [|congruence]. cbn. intuition congruence.
  Qed.

  Lemma next_trk_for : forall n t (s : st), trk_for n t -> trk_for n (next_trk t s).
  Proof.
    intros n t s [->|[-> H]].
    - destruct (known_track n) eqn:E; cbn [next_trk]; try (left; auto; fail).
      assert (name = n /\ tracking = true) as [-> ->].
      { unfold known_track in E.
        repeat (match type of E with context [String.eqb n ?b] => destruct (String.eqb n b) end; [discriminate|]). inversion E; auto. }
      destruct (attr_of n s) eqn:Ea; [left; auto|]. right. split; auto.
      intros Hin. apply (attr_known n s E) in Hin. congruence.
    - right. auto.
  Qed.

  Lemma trk_for_appended : forall (c : cfg) n t (a b : st) q, trk_for n t ->
    q = set_t (s_t a) (set_it (s_it a) b) -> s_drift b <> None ->
    appended c t n q = match documented c n a b with Some v => [v] | None => [] end.
  Proof.
    intros c n t a b q Ht -> Hd. destruct Ht as [->|[-> Hn]].
    - unfold known_track, documented.
      repeat (match goal with |- context [String.eqb n ?b] => destruct (String.eqb_spec n b) as [->|] end;
              [cbn [String.eqb Ascii.eqb Bool.eqb appended]; sst; try reflexivity|]).
      + destruct b as []; cbn in *. destruct s_drift; cbn; auto; congruence.
      + cbn [appended]. rewrite String.eqb_refl. unfold attr_of.
        repeat (match goal with |- context [String.eqb n ?b] => destruct (String.eqb_spec n b) as [->|]; [congruence|] end). auto.
    - cbn [appended]. unfold documented.
      repeat (match goal with |- context [String.eqb n ?b] => destruct (String.eqb_spec n b) as [->|]; [exfalso; apply Hn; cbn; tauto|] end). auto.
  Qed.

  (** ** initial history *)
  Definition first_entries (n : string) (x : arr V) : list hval := if String.eqb n "x" then [HX x] else [].

  Lemma trk_init_known : forall n k (s : st), exists h, trk_init (known_track n) s = set_hist h s /\
    (hist_get k (s_hist s) = Some (first_entries k (s_x s)) \/ n = k -> hist_get k h = Some (first_entries k (s_x s))).
  Proof.
    intros n k s. unfold known_track.
    repeat (match goal with |- context [String.eqb n ?b] => destruct (String.eqb_spec n b) as [->|] end;
      [cbn [trk_init]; eexists; split; [reflexivity|]; intros H; rewrite ?hist_get_set;
       repeat (match goal with |- context [String.eqb k ?b] => destruct (String.eqb_spec k b) as [->|] end; try reflexivity);
       destruct H; congruence|]).
    cbn [trk_init]. eexists; split; [reflexivity|]. intros H. rewrite hist_get_set.
    destruct (String.eqb_spec k n) as [->|].
    - unfold first_entries. rewrite (proj2 (String.eqb_neq n "x")); auto.
    - destruct H; congruence.
  Qed.

  Lemma fold_init_known : forall names k (s : st), exists h,
    fold_left (fun acc t => trk_init t acc) (map known_track names) s = set_hist h s /\
    (hist_get k (s_hist s) = Some (first_entries k (s_x s)) \/ In k names -> hist_get k h = Some (first_entries k (s_x s))).
  Proof.
    induction names; intros k s; cbn [map fold_left].
    - exists (s_hist s). rewrite set_hist_same. split; auto. intros [H|[]]; auto.
    - destruct (trk_init_known a k s) as (h & -> & Hh). destruct (IHnames k (set_hist h s)) as (h' & E & Hh').
      exists h'. split; [rewrite E; destruct s; auto|]. sstall. intros [H|[H|H]]; apply Hh'; auto.
  Qed.

  (** ** one tracking call *)
  Lemma flat_single : forall (c : cfg) names ts k (s : st), Forall2 trk_for names ts -> NoDup names ->
    (In "drift" names -> ~ In "particle_idx" names) ->
    (~ In k names -> ~ (In "drift" names /\ k = "particle_idx") -> flat_map (fun t => appended c t k s) ts = []) /\
    (forall t, In k names -> (forall t', In t' ts -> trk_for k t' -> t' = t) -> flat_map (fun t => appended c t k s) ts = appended c t k s).
  Proof.
    intros c names ts k s H. induction H as [|n t names ts Hn H IH]; intros Hd Hp.
    - split; auto. intros ? [].
    - inversion Hd; subst. destruct IH as [IH1 IH2]; auto.
      { intros X1 X2. apply Hp; cbn; auto. }
      assert (Hother : n <> k -> ~ (n = "drift" /\ k = "particle_idx") -> appended c t k s = []).
      { intros X1 X2. destruct Hn as [->|[-> _]]; [apply known_track_appended; auto|reflexivity]. }
      cbn [flat_map]. split.
      + intros X1 X2. rewrite Hother, IH1; auto.
        * intros Hk. apply X1. cbn; auto.
        * intros [A B]. apply X2. cbn; auto.
        * intros ->. apply X1. cbn; auto.
        * intros [-> ->]. apply X2. cbn; auto.
      + intros t0 Hin Hu. destruct (string_dec n k) as [->|Hne].
        * rewrite IH1; auto.
          -- rewrite app_nil_r. f_equal. apply Hu; cbn; auto.
          -- intros [A ->]. apply Hp; cbn; auto.
        * destruct Hin as [|Hin]; [congruence|]. rewrite Hother; auto.
          -- cbn. apply IH2; auto. intros. apply Hu; cbn; auto.
          -- intros [-> ->]. apply Hp; cbn; auto.
  Qed.

  Definition key_of (t : trk) : string :=
    match t with TX => "x" | TUpd => "update_norm" | TEnergy => "energy" | TCons => "consensus"
            | TDriftMean => "drift_mean" | TDrift => "drift" | TDefault n _ => n end.
  Lemma key_of_known : forall n, key_of (known_track n) = n.
  Proof.
    intros n. unfold known_track.
    repeat (match goal with |- context [String.eqb n ?b] => destruct (String.eqb_spec n b) as [->|]; [reflexivity|] end).
    reflexivity.
  Qed.
  Lemma trk_for_key : forall n k t, trk_for n t -> trk_for k t -> n = k.
  Proof.
    assert (A : forall n t, trk_for n t -> key_of t = n).
    { intros n t [->|[-> _]]; [apply key_of_known|reflexivity]. }
    intros n k t H1 H2. apply A in H1, H2. congruence.
  Qed.

  Lemma flat_names : forall (c : cfg) names ts k (s : st), Forall2 trk_for names ts -> NoDup names ->
    (In "drift" names -> ~ In "particle_idx" names) -> In k names ->
    exists t, trk_for k t /\ flat_map (fun t => appended c t k s) ts = appended c t k s.
  Proof.
    intros c names ts k s H Hd Hp Hk.
    assert (exists t, trk_for k t /\ In t ts /\ forall t', In t' ts -> trk_for k t' -> t' = t) as (t & T1 & T2 & T3).
    { clear Hp. induction H as [|n t names ts Hn H IH]; [destruct Hk|]. inversion Hd; subst.
      destruct Hk as [->|Hk].
      - exists t. split; auto. split; [cbn; auto|]. intros t' [|Ht'] Hf; auto.
        exfalso. apply H2. clear - H Ht' Hf. induction H; [destruct Ht'|]. destruct Ht' as [->|Ht'].
        + cbn. left. eapply trk_for_key; eauto. + cbn. right; auto.
      - destruct IH as (t0 & A & B & C); auto. exists t0. split; auto. split; [cbn; auto|].
        intros t' [->|Ht'] Hf; auto. exfalso. apply H2. pose proof (trk_for_key _ _ _ Hn Hf). subst. auto. }
    exists t. split; auto. apply flat_single with (names := names); auto.
  Qed.

  (** ** runs *)
  Definition doc_entries (c : cfg) (n : string) (pairs : list (st * st)) : list hval :=
    flat_map (fun p => match documented c n (fst p) (snd p) with Some v => [v] | None => [] end) pairs.

  Lemma appended_post : forall (c : cfg) t k (q : st) ti ts h i tt,
    appended c t k (set_t (s_t q) (set_it (s_it q) (set_it i (set_t tt (set_trackit ti (set_tracks ts (set_hist h q))))))) = appended c t k q.
  Proof. intros. destruct q. destruct t; try reflexivity. Qed.

  Lemma track_vals : forall (c : cfg) (q s5 : st) i tt, track c q = Ok s5 -> (s_it q mod s_save q =? 0) = true ->
    Forall2 (fun t t' => exists q, t' = next_trk t q) (s_tracks q) (s_tracks s5) /\
    forall k l, hist_get k (s_hist q) = Some l ->
      hist_get k (s_hist s5) = Some (l ++ flat_map (fun t => appended c t k (set_t (s_t q) (set_it (s_it q) (set_it i (set_t tt s5))))) (s_tracks q)).
  Proof.
    intros c q s5 i tt Et Hmod. unfold track in Et. destruct (s_save q) eqn:Es; [discriminate|]. rewrite Hmod in Et.
    apply bind_ok in Et. destruct Et as ([ts' s6] & Et & E5). inversion E5; subst s5; clear E5.
    apply trks_update_vals in Et. destruct Et as (-> & h & -> & Hh).
    split.
    - sst. generalize (s_tracks q). intros ts. induction ts as [|t0 ts IH]; cbn [map]; constructor; [eexists; reflexivity|apply IH].
    - intros k l Hl. sst. rewrite (Hh k l Hl). f_equal.
  Qed.

  Lemma step_track : forall (c : cfg) (o : orc) s s', step c o s = Ok s' -> s_drift s' <> None ->
    (s_it s mod s_save s =? 0) = true ->
    Forall2 (fun t t' => exists q, t' = next_trk t q) (s_tracks s) (s_tracks s') /\
    forall k l, hist_get k (s_hist s) = Some l ->
      hist_get k (s_hist s') = Some (l ++ flat_map (fun t => appended c t k (set_t (s_t s) (set_it (s_it s) s'))) (s_tracks s)).
  Proof.
    intros c o s s' HS Hd Hmod. apply step_split in HS. destruct HS as (s1 & s2 & E1 & E2 & E3).
    apply pre_step_frame in E1. destruct E1 as (ci & pi & ind & xo & ->).
    apply cbo_step_frame in E2. destruct E2 as (x & d & cep & e & cp & fc & nf & ->).
    apply post_step_frame in E3. destruct E3 as (x' & ud & fm & bcp & bce & be & bp & s5 & Et & ->).
    match type of Et with track c ?q = _ => set (q0 := q) in *;
      assert (A : s_it q0 = s_it s /\ s_save q0 = s_save s /\ s_tracks q0 = s_tracks s /\ s_hist q0 = s_hist s /\ s_t q0 = s_t s)
        by (repeat split; reflexivity) end.
    sst. clearbody q0. destruct A as (A1 & A2 & A3 & A4 & A5).
    rewrite <- A1, <- A3, <- A4, <- A5. apply track_vals; auto. rewrite A1, A2. auto.
  Qed.

  Lemma track_skip : forall (c : cfg) (q s5 : st), track c q = Ok s5 -> (s_it q mod s_save q =? 0) = false ->
    s_tracks s5 = s_tracks q /\ s_hist s5 = s_hist q.
  Proof.
    intros c q s5 Et Hmod. unfold track in Et. destruct (s_save q) eqn:Es; [discriminate|]. rewrite Hmod in Et.
    inversion Et; subst s5. sst. auto.
  Qed.

  Lemma step_notrack : forall (c : cfg) (o : orc) s s', step c o s = Ok s' ->
    (s_it s mod s_save s =? 0) = false -> s_tracks s' = s_tracks s /\ s_hist s' = s_hist s.
  Proof.
    intros c o s s' HS Hmod. apply step_split in HS. destruct HS as (s1 & s2 & E1 & E2 & E3).
    apply pre_step_frame in E1. destruct E1 as (ci & pi & ind & xo & ->).
    apply cbo_step_frame in E2. destruct E2 as (x & d & cep & e & cp & fc & nf & ->).
    apply post_step_frame in E3. destruct E3 as (x' & ud & fm & bcp & bce & be & bp & s5 & Et & ->).
    match type of Et with track c ?q = _ => set (q0 := q) in *;
      assert (A : s_it q0 = s_it s /\ s_save q0 = s_save s /\ s_tracks q0 = s_tracks s /\ s_hist q0 = s_hist s)
        by (repeat split; reflexivity) end.
    sst. clearbody q0. destruct A as (A1 & A2 & A3 & A4).
    rewrite <- A3, <- A4. apply track_skip with (c := c); auto. rewrite A1, A2. auto.
  Qed.

  Lemma step_drift : forall (c : cfg) (o : orc) s s', step c o s = Ok s' -> s_drift s' <> None.
  Proof.
    intros c o s s' HS. apply step_split in HS. destruct HS as (s1 & s2 & E1 & E2 & E3).
    apply cbo_step_frame in E2. destruct E2 as (x & d & cep & e & cp & fc & nf & ->).
    apply post_step_frame in E3. destruct E3 as (x' & ud & fm & bcp & bce & be & bp & s5 & Et & ->).
    apply track_frame in Et. destruct Et as (ti & ts & h & ->). sst. discriminate.
  Qed.

  Definition resolved_names (names : option (list string)) : list string :=
    match names with Some l => l | None => ["update_norm"; "energy"] end.
  Definition resolved_save (save : option nat) : nat := match save with Some k => k | None => 1 end.

  Theorem history_content : forall (c : cfg) x0 chk al sg la dt perm0 names save s0 pairs s name,
    is_array (length x0) (shape1 x0) x0 -> 1 <= shape1 x0 -> 1 <= c_bsize c <= shape1 x0 ->
    (forall m, m < length x0 -> Permutation.Permutation (perm0 m) (seq 0 (shape1 x0))) ->
    1 <= resolved_save save ->
    init c x0 chk al sg la dt perm0 names [] save = Ok s0 ->
    NoDup (resolved_names names) -> (In "drift" (resolved_names names) -> ~ In "particle_idx" (resolved_names names)) ->
    recorded_run c s0 pairs s -> In name (resolved_names names) ->
    hist_get name (s_hist s) = Some (first_entries name x0 ++ doc_entries c name (sampled (resolved_save save) pairs)).
  Proof.
    intros c x0 chk al sg la dt perm0 names save s0 pairs s name Hx HN Hb Hp Hs H Hd Hdr R Hin.
    assert (HC : constructed c s0).
    { exists x0, chk, al, sg, la, dt, perm0, names, [], save. repeat split; auto; try apply Hx; try lia.
      intros ->. cbn in Hs. lia. }
    assert (Inv : s_it s = length pairs /\ s_save s = resolved_save save /\ Forall2 trk_for (resolved_names names) (s_tracks s) /\
      (exists log, exec c s log) /\
      hist_get name (s_hist s) = Some (first_entries name x0 ++ doc_entries c name (sampled (resolved_save save) pairs))).
    2:{ apply Inv. }
    induction R.
    - unfold init in H. apply bind_ok in H. destruct H as (bp & _ & H). injection H as E0.
      unfold init_history in E0. cbv zeta in E0. fold (resolved_names names) in E0. cbn [app] in E0.
      match type of E0 with fold_left _ _ ?q = _ => destruct (fold_init_known (resolved_names names) name q) as (h & E & Hh) end.
      rewrite E in E0. rewrite <- E0. sstall. split; auto. split; auto. split.
      { clear. induction (resolved_names names); cbn; constructor; auto. left; auto. }
      split. { exists []. rewrite E0. apply ex_init; auto. }
      rewrite Hh by auto. cbn. rewrite app_nil_r. auto.
    - destruct IHR as (I1 & I2 & I3 & (log & I4) & I5).
      destruct (step_ok_char c o s1 s2 (exec_wf _ _ _ I4) (perms_valid_ok _ _ H0) H1) as (W' & (M1 & N1 & _ & _ & _ & _ & _ & T1 & _ & _ & Sv & _) & _).
      split. { rewrite T1, app_length, I1. cbn. lia. }
      split; [congruence|].
      rewrite sampled_snoc. rewrite <- I1, <- I2.
      pose proof (step_drift _ _ _ _ H1) as Hdrift.
      destruct (s_it s1 mod s_save s1 =? 0) eqn:Em.
      + destruct (step_track _ _ _ _ H1 Hdrift Em) as [Ht Hh]. split.
        { clear - I3 Ht. revert Ht. generalize (s_tracks s2). induction I3; intros ts' Ht; inversion Ht; subst; constructor; auto.
          match goal with X : exists q, _ |- _ => destruct X as [q ->] end. apply next_trk_for. auto. }
        split; [eauto using ex_step|].
        rewrite (Hh _ _ I5). f_equal. rewrite <- app_assoc. f_equal. unfold doc_entries. rewrite flat_map_app.
        rewrite <- I2. f_equal.
        destruct (flat_names c (resolved_names names) (s_tracks s1) name (set_t (s_t s1) (set_it (s_it s1) s2)) I3 Hd Hdr Hin)
          as (t & Tf & Et).
        rewrite Et. rewrite (trk_for_appended c name t s1 s2); auto. cbn [flat_map fst snd]. rewrite app_nil_r. auto.
      + destruct (step_notrack _ _ _ _ H1 Em) as [-> ->]. split; auto. split; [eauto using ex_step|].
        rewrite app_nil_r. rewrite I2. auto.
    - destruct IHR as (I1 & I2 & I3 & (log & I4) & I5).
      assert (exists log', exec c s2 log') by (eauto using ex_term).
      apply terminate_char in H0. destruct H0 as (act & re & -> & _). sst. auto.
    - destruct IHR as (I1 & I2 & I3 & (log & I4) & I5).
      assert (exists log', exec c s2 log') by (eauto using ex_params).
      destruct H0 as (al' & sg' & la' & d & Hal & ->). sst. auto.
  Qed.

  Lemma documented_known : forall (c : cfg) n (a b : st), In n known_names -> s_drift b <> None ->
    exists v, documented c n a b = Some v.
  Proof.
    intros c n a b Hn Hd. unfold documented.
    repeat (match goal with |- context [String.eqb n ?b] => destruct (String.eqb_spec n b) as [->|] end; [eauto|]).
    1:{ destruct (s_drift b); [cbn; eauto|congruence]. }
    exfalso. cbn in Hn. intuition congruence.
  Qed.

  Lemma doc_entries_known : forall (c : cfg) n pairs, In n known_names -> (forall p, In p pairs -> s_drift (snd p) <> None) ->
    length (doc_entries c n pairs) = length pairs /\
    forall j, nth_error (doc_entries c n pairs) j =
      match nth_error pairs j with Some p => documented c n (fst p) (snd p) | None => None end.
  Proof.
    intros c n pairs Hn Hd. unfold doc_entries. induction pairs as [|p pairs IH].
    - split; auto. intros [|j]; auto.
    - destruct IH as [L E]. { intros. apply Hd. cbn; auto. }
      destruct (documented_known c n (fst p) (snd p) Hn) as [v Hv]. { apply Hd. cbn; auto. }
      cbn [flat_map]. rewrite Hv. cbn [app length]. split; auto. intros [|j]; cbn; auto.
  Qed.

  Lemma sampled_in : forall A save (l : list A) a, In a (sampled save l) -> In a l.
  Proof.
    intros A save l a H. unfold sampled in H. apply in_map_iff in H. destruct H as ([i b] & <- & H).
    apply filter_In in H. destruct H as [H _]. eapply in_combine_r; eauto.
  Qed.

  Lemma run_drift : forall (c : cfg) s0 pairs s p, recorded_run c s0 pairs s -> In p pairs -> s_drift (snd p) <> None.
  Proof.
    intros c s0 pairs s p R. induction R; intros Hp; try (exact (IHR Hp)).
    - destruct Hp.
    - apply in_app_or in Hp. destruct Hp as [|[<-|[]]]; auto. cbn. eapply step_drift; eauto.
  Qed.

  Theorem history_entries : forall (c : cfg) x0 chk al sg la dt perm0 names save s0 pairs s name,
    is_array (length x0) (shape1 x0) x0 -> 1 <= shape1 x0 -> 1 <= c_bsize c <= shape1 x0 ->
    (forall m, m < length x0 -> Permutation.Permutation (perm0 m) (seq 0 (shape1 x0))) ->
    1 <= resolved_save save ->
    init c x0 chk al sg la dt perm0 names [] save = Ok s0 ->
    NoDup (resolved_names names) -> (In "drift" (resolved_names names) -> ~ In "particle_idx" (resolved_names names)) ->
    recorded_run c s0 pairs s -> In name (resolved_names names) ->
    exists l, hist_get name (s_hist s) = Some l /\
      (In name known_names ->
         (exists l0, l = (if String.eqb name "x" then [HX x0] else []) ++ l0 /\
           length l0 = (length pairs + resolved_save save - 1) / resolved_save save /\
           forall j, j * resolved_save save < length pairs ->
             exists a b v, nth_error pairs (j * resolved_save save) = Some (a, b) /\
               documented c name a b = Some v /\ nth_error l0 j = Some v)) /\
      (~ In name known_names -> l = []).
  Proof.
    intros c x0 chk al sg la dt perm0 names save s0 pairs s name Hx HN Hb Hp Hs H Hd Hdr R Hin.
    pose proof (history_content c x0 chk al sg la dt perm0 names save s0 pairs s name Hx HN Hb Hp Hs H Hd Hdr R Hin) as E.
    eexists. split; [exact E|]. split.
    - intros Hk. eexists. split; [reflexivity|].
      destruct (doc_entries_known c name (sampled (resolved_save save) pairs) Hk) as [L N].
      { intros p Hpp. eapply run_drift; eauto. eapply sampled_in; eauto. }
      split. { rewrite L. apply sampled_length. auto. }
      intros j Hj. destruct (nth_error_lt_Some _ _ _ Hj) as [[a b] Hab].
      destruct (documented_known c name a b Hk) as [v Hv].
      { apply (run_drift c s0 pairs s (a, b) R). eapply nth_error_In; eauto. }
      exists a, b, v. split; auto. split; auto. rewrite N, sampled_nth, Hab; auto.
    - intros Hk. unfold first_entries, doc_entries. destruct (String.eqb_spec name "x") as [->|]; [exfalso; apply Hk; cbn; auto|].
      cbn [app]. clear E. induction (sampled (resolved_save save) pairs) as [|[a b] l IH]; auto. cbn [flat_map fst snd]. rewrite IH.
      unfold documented.
      repeat (match goal with |- context [String.eqb name ?b] => destruct (String.eqb_spec name b) as [->|]; [exfalso; apply Hk; cbn; tauto|] end). auto.
  Qed.

  Theorem history_known : forall (c : cfg) x0 chk al sg la dt perm0 names save s0 pairs s name,
    is_array (length x0) (shape1 x0) x0 -> 1 <= shape1 x0 -> 1 <= c_bsize c <= shape1 x0 ->
    (forall m, m < length x0 -> Permutation.Permutation (perm0 m) (seq 0 (shape1 x0))) ->
    1 <= save ->
    init c x0 chk al sg la dt perm0 (Some names) [] (Some save) = Ok s0 ->
    NoDup names -> (In "drift" names -> ~ In "particle_idx" names) ->
    recorded_run c s0 pairs s -> In name names -> In name known_names ->
    exists l, hist_get name (s_hist s) = Some ((if String.eqb name "x" then [HX x0] else []) ++ l) /\
      length l = (length pairs + save - 1) / save /\
      forall k, k * save < length pairs ->
        exists a b v, nth_error pairs (k * save) = Some (a, b) /\
          documented c name a b = Some v /\ nth_error l k = Some v.
  Proof.
    intros c x0 chk al sg la dt perm0 names save s0 pairs s name H1 H2 H3 H4 H5 H6 H7 H8 R H9 H10.
    destruct (history_entries c x0 chk al sg la dt perm0 (Some names) (Some save) s0 pairs s name H1 H2 H3 H4 H5 H6 H7 H8 R H9)
      as (l & E & A & _).
    destruct (A H10) as (l0 & -> & B & C). exists l0. auto.
  Qed.
End Hist.
