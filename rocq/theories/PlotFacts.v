(** * Facts about plotting *)
From Coq Require Import String List Arith Bool Lia Permutation.
From Verif Require Import Scalar Np NpFacts State Pdyn PdynFacts PdynStep PdynOk Exec HistSpec HistFacts Plotting.
Import ListNotations.
Open Scope string_scope.
Open Scope nat_scope.
Open Scope list_scope.

Section PlotFacts.
  Context {K V : Type}.
  Notation hval := (hval K V).

  (** the loop over the frames *)
  Lemma plot_loop_ok : forall num_run freq (hx : list hval) hc hd left i, 1 <= freq ->
    (forall j, i <= j < i + left -> exists f, plot_at_ind num_run hx hc hd j = Ok f) ->
    exists fs, plot_loop num_run freq hx hc hd i left = Ok fs /\
      map fr_it fs = filter (fun j => j mod freq =? 0) (seq i left) /\
      Forall (fun f => plot_at_ind num_run hx hc hd (fr_it f) = Ok f) fs.
  Proof.
    induction left as [|left IH]; intros i Hf H; cbn [plot_loop].
    - exists []. auto.
    - destruct (Nat.eqb_spec freq 0); [lia |]. cbn [seq filter].
      destruct (IH (S i) Hf) as (fs & E & Em & F). { intros j Hj. apply H. lia. }
      destruct (i mod freq =? 0) eqn:Ei; [| exists fs; auto].
      destruct (H i) as (f & Ef); [lia |]. rewrite Ef. cbn [bind]. rewrite E. exists (f :: fs). split; auto.
      assert (Hi : fr_it f = i).
      { unfold plot_at_ind in Ef. repeat (apply bind_ok in Ef; destruct Ef as (? & _ & Ef)). injection Ef as <-. auto. }
      split; [cbn; congruence |]. constructor; auto. rewrite Hi. auto.
  Qed.

  Lemma plot_loop_err : forall num_run freq (hx : list hval) hc hd left i j e, 1 <= freq -> i <= j < i + left -> j mod freq = 0 ->
    plot_at_ind num_run hx hc hd j = Err e -> exists e', plot_loop num_run freq hx hc hd i left = Err e'.
  Proof.
    induction left as [|left IH]; intros i j e Hf Hj Hm He; [lia |]. cbn [plot_loop].
    destruct (Nat.eqb_spec freq 0); [lia |]. destruct (Nat.eq_dec i j) as [-> | N].
    - rewrite Hm. cbn. rewrite He. cbn. eauto.
    - destruct (IH (S i) j e Hf) as (e' & E); auto; [lia |].
      destruct (i mod freq =? 0); [| eauto]. destruct (plot_at_ind num_run hx hc hd i); cbn; [| eauto].
      rewrite E. cbn. eauto.
  Qed.
End PlotFacts.

(** ** histories written by a dynamic *)
Section Recorded.
  Context {K V : Type} {O : KOps K}.
  Notation hval := (hval K V).
  Notation st := (st K V).
  Notation cfg := (cfg K V).

  (** [names] are the tracked names of a dynamic constructed with the ensemble [x0], which has made the steps
      [pairs], every [save]-th one recorded *)
  Definition tracked_run (c : cfg) (x0 : arr V) (names : list string) (save : nat) (pairs : list (st * st)) (s : st) : Prop :=
    exists chk al sg la dt perm0 s0,
      is_array (length x0) (shape1 x0) x0 /\ 1 <= shape1 x0 /\ 1 <= c_bsize c <= shape1 x0 /\
      (forall m, m < length x0 -> Permutation (perm0 m) (seq 0 (shape1 x0))) /\ 1 <= save /\
      init c x0 chk al sg la dt perm0 (Some names) [] (Some save) = Ok s0 /\
      NoDup names /\ (In "drift" names -> ~ In "particle_idx" names) /\ recorded_run c s0 pairs s.

  Definition records (pairs : list (st * st)) (save : nat) : nat := (length pairs + save - 1) / save.

  Lemma tracked_entries : forall c x0 names save pairs s name, tracked_run c x0 names save pairs s ->
    In name names -> In name known_names ->
    exists l, hist_get name (s_hist s) = Some ((if String.eqb name "x" then [HX x0] else []) ++ l) /\
      length l = records pairs save /\
      forall k, k < records pairs save -> exists a b v, nth_error pairs (k * save) = Some (a, b) /\
        documented c name a b = Some v /\ nth_error l k = Some v.
  Proof.
    intros c x0 names save pairs s name (chk & al & sg & la & dt & perm0 & s0 & A1 & A2 & A3 & A4 & A5 & A6 & A7 & A8 & A9) H1 H2.
    destruct (history_known c x0 chk al sg la dt perm0 names save s0 pairs s name A1 A2 A3 A4 A5 A6 A7 A8 A9 H1 H2)
      as (l & E & L & Hl).
    exists l. split; auto. split; auto. intros k Hk. apply Hl.
    unfold records in Hk. pose proof (Nat.mul_div_le (length pairs + save - 1) save ltac:(lia)). nia.
  Qed.

  (** the ensemble before record [i] was made: the initial one, or the one after the previous record *)
  Definition shown_ensemble (x0 : arr V) (pairs : list (st * st)) (save i : nat) (x : arr V) : Prop :=
    match i with
    | 0 => x = x0
    | S k => exists a b, nth_error pairs (k * save) = Some (a, b) /\ x = s_x b
    end.

  Lemma run_plots_ok : forall c x0 names save pairs s num_run freq, tracked_run c x0 names save pairs s ->
    In "x" names -> In "consensus" names -> In "drift" names -> pairs <> [] -> 1 <= freq ->
    num_run < length x0 ->
    (forall a b, In (a, b) pairs -> num_run < length (s_x b) /\
       (exists cpt, s_cons b = Some cpt /\ num_run < length cpt) /\ (exists d, s_drift b = Some d /\ num_run < length d)) ->
    exists fs, plot_history num_run freq true true (s_hist s) = Ok fs /\
      map fr_it fs = filter (fun j => j mod freq =? 0) (seq 0 (records pairs save)) /\
      Forall (fun f => exists a b x cpt d crow drow, nth_error pairs (fr_it f * save) = Some (a, b) /\
         shown_ensemble x0 pairs save (fr_it f) x /\ nth_error x num_run = Some (fr_x f) /\
         s_cons b = Some cpt /\ nth_error cpt num_run = Some crow /\ fr_c f = Some crow /\
         s_drift b = Some d /\ nth_error d num_run = Some drow /\ fr_d f = Some drow) fs.
  Proof.
    intros c x0 names save pairs s num_run freq T Ix Ic Id NE Hf Hn Hrows.
    destruct (tracked_entries c x0 names save pairs s "x" T Ix ltac:(cbn; tauto)) as (lx & Ex & Lx & Hx).
    destruct (tracked_entries c x0 names save pairs s "consensus" T Ic ltac:(cbn; tauto)) as (lc & Ec & Lc & Hc).
    destruct (tracked_entries c x0 names save pairs s "drift" T Id ltac:(cbn; tauto)) as (ld & Ed & Ld & Hd).
    cbn [String.eqb Ascii.eqb Bool.eqb app] in Ex, Ec, Ed.
    unfold plot_history. rewrite Ex, Ec, Ed.
    set (hx := HX x0 :: lx) in *.
    assert (Hpos : 1 <= records pairs save).
    { unfold records. destruct T as (_ & _ & _ & _ & _ & _ & _ & _ & _ & _ & _ & Hs & _).
      destruct pairs; [congruence |]. cbn [length]. apply Nat.div_le_lower_bound; lia. }
    assert (Frame : forall i, i < records pairs save -> exists a b x cpt d xr crow drow,
       plot_at_ind num_run hx (Some lc) (Some ld) i = Ok (mkframe i xr (Some crow) (Some drow)) /\
       nth_error pairs (i * save) = Some (a, b) /\ shown_ensemble x0 pairs save i x /\ nth_error x num_run = Some xr /\
       s_cons b = Some cpt /\ nth_error cpt num_run = Some crow /\ s_drift b = Some d /\ nth_error d num_run = Some drow).
    { intros i Hi.
      destruct (Hc i Hi) as (a & b & v & E1 & E2 & E3). cbn in E2. injection E2 as <-.
      destruct (Hd i Hi) as (a' & b' & v' & E1' & E2' & E3'). rewrite E1 in E1'. injection E1' as <- <-. cbn in E2'. injection E2' as <-.
      destruct (Hrows a b (nth_error_In _ _ E1)) as (_ & (cpt & Ecpt & Lcpt) & (d & Edr & Ldr)).
      destruct (nth_error_lt_Some _ cpt num_run Lcpt) as (crow & Ecr).
      destruct (nth_error_lt_Some _ d num_run Ldr) as (drow & Edrow).
      assert (Sx : exists x xr, shown_ensemble x0 pairs save i x /\ nth_error hx i = Some (HX x) /\ nth_error x num_run = Some xr).
      { destruct i as [|k].
        - destruct (nth_error_lt_Some _ x0 num_run Hn) as (xr & Exr). exists x0, xr. cbn. auto.
        - destruct (Hx k ltac:(lia)) as (ak & bk & vk & K1 & K2 & K3). cbn in K2. injection K2 as <-.
          destruct (Hrows ak bk (nth_error_In _ _ K1)) as (Lx' & _).
          destruct (nth_error_lt_Some _ (s_x bk) num_run Lx') as (xr & Exr). exists (s_x bk), xr.
          split; [exists ak, bk; auto |]. auto. }
      destruct Sx as (x & xr & S1 & S2 & S3).
      exists a, b, x, cpt, d, xr, crow, drow. split; [| repeat split; auto].
      unfold plot_at_ind, opt_row, take1. rewrite S2. cbn [bind x_row]. unfold take1. rewrite S3. cbn [bind].
      rewrite E3. cbn [bind]. rewrite Ecpt. cbn [c_row]. unfold take1. rewrite Ecr. cbn [bind].
      rewrite E3'. cbn [bind]. rewrite Edr. cbn [d_row]. unfold take1. rewrite Edrow. cbn [bind]. reflexivity. }
    assert (Hlen : length hx - 1 = records pairs save) by (unfold hx; cbn; lia).
    rewrite Hlen.
    destruct (plot_loop_ok num_run freq hx (Some lc) (Some ld) (records pairs save) 0 Hf) as (fs & E & Em & F).
    { intros j Hj. destruct (Frame j ltac:(lia)) as (? & ? & ? & ? & ? & ? & ? & ? & Ef & _). eauto. }
    exists fs. split.
    { destruct (Frame 0 ltac:(lia)) as (? & ? & ? & ? & ? & ? & ? & ? & Ef & _). rewrite Ef. cbn [bind]. exact E. }
    split; auto.
    rewrite Forall_forall in F |- *. intros f Hin. specialize (F f Hin).
    assert (Hlt : fr_it f < records pairs save).
    { assert (Hm : In (fr_it f) (map fr_it fs)) by (apply in_map; auto). rewrite Em in Hm. apply filter_In in Hm.
      destruct Hm as [Hm _]. apply in_seq in Hm. lia. }
    destruct (Frame (fr_it f) Hlt) as (a & b & x & cpt & d & xr & crow & drow & Ef & E1 & E2 & E3 & E4 & E5 & E6 & E7).
    rewrite Ef in F. injection F as F.
    exists a, b, x, cpt, d, crow, drow. rewrite <- F at 3 4 5. cbn. repeat split; auto.
  Qed.

  (** a recorded consensus with too few rows: plotting raises *)
  Lemma run_plots_raise : forall c x0 names save pairs s num_run freq i a b cpt pd, tracked_run c x0 names save pairs s ->
    In "x" names -> In "consensus" names -> 1 <= freq -> i < records pairs save -> i mod freq = 0 ->
    nth_error pairs (i * save) = Some (a, b) -> s_cons b = Some cpt -> length cpt <= num_run ->
    exists e, plot_history num_run freq true pd (s_hist s) = Err e.
  Proof.
    intros c x0 names save pairs s num_run freq i a b cpt pd T Ix Ic Hf Hi Hm Hp Hcpt Hl.
    destruct (tracked_entries c x0 names save pairs s "x" T Ix ltac:(cbn; tauto)) as (lx & Ex & Lx & _).
    destruct (tracked_entries c x0 names save pairs s "consensus" T Ic ltac:(cbn; tauto)) as (lc & Ec & Lc & Hc).
    cbn [String.eqb Ascii.eqb Bool.eqb app] in Ex, Ec.
    unfold plot_history. rewrite Ex, Ec. set (hx := HX x0 :: lx) in *.
    set (hd := if pd then hist_get "drift" (s_hist s) else None).
    destruct (Hc i Hi) as (a' & b' & v & E1 & E2 & E3). rewrite Hp in E1. injection E1 as <- <-. cbn in E2. injection E2 as <-.
    assert (He : exists e, plot_at_ind num_run hx (Some lc) hd i = Err e).
    { unfold plot_at_ind. destruct (take1 hx i) as [v0|]; cbn [bind]; [| eauto].
      destruct (x_row num_run v0); cbn [bind]; [| eauto].
      unfold opt_row at 1. unfold take1 at 1. rewrite E3. cbn [bind]. rewrite Hcpt. cbn [c_row]. unfold take1.
      rewrite (proj2 (nth_error_None cpt num_run) Hl). cbn. eauto. }
    destruct He as (e & He).
    destruct (plot_at_ind num_run hx (Some lc) hd 0); cbn [bind]; [| eauto].
    eapply plot_loop_err with (j := i); eauto. unfold hx. cbn. lia.
  Qed.
End Recorded.

Lemma y_limit_zero : forall A (is_zero : A -> bool) x v, is_zero v = true -> y_limit is_zero x (Some v) = x.
Proof. intros. unfold y_limit. rewrite H. auto. Qed.
