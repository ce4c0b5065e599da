(** * Facts about relabelled runs *)
From Coq Require Import String List Arith Bool Permutation Lia FinFun.
From Verif Require Import Scalar Np NpFacts State Pdyn PdynFacts PdynStep PdynRun PdynOk Exec TermSpec TermFacts RunFacts MoveFacts TwinFacts RelabelSpec.
Import ListNotations.
Open Scope nat_scope.
Open Scope list_scope.

Lemma bijection_inv : forall N p r, bijection N p r -> bijection N r p.
Proof. intros N p r H i Hi. destruct (H i Hi) as (A & B & C & D). auto. Qed.


Lemma bijection_inj : forall N p r i j, bijection N p r -> i < N -> j < N -> r i = r j -> i = j.
Proof. intros N p r i j H Hi Hj E. destruct (H i Hi) as (_ & _ & A & _). destruct (H j Hj) as (_ & _ & B & _). congruence. Qed.

Lemma map_bij_NoDup : forall N p r l, bijection N p r -> (forall j, In j l -> j < N) -> NoDup l -> NoDup (map r l).
Proof.
  intros N p r l H. induction l as [|a l IH]; cbn; intros I1 ND; constructor; inversion ND; subst.
  - intros Hin. apply in_map_iff in Hin. destruct Hin as (b & Hb & Hin).
    assert (a = b) by (apply (bijection_inj N p r); auto). subst. auto.
  - apply IH; auto.
Qed.

Lemma bijection_perm : forall N p r l, bijection N p r -> Permutation l (seq 0 N) -> Permutation (map r l) (seq 0 N).
Proof.
  intros N p r l H P. assert (I1 : forall j, In j l -> j < N).
  { intros j Hj. apply (Permutation_in _ P) in Hj. apply in_seq in Hj. lia. }
  apply NoDup_Permutation.
  - apply (map_bij_NoDup N p r); auto. apply (Permutation_NoDup (Permutation_sym P)). apply seq_NoDup.
  - apply seq_NoDup.
  - intros x. split; intros Hx.
    + apply in_map_iff in Hx. destruct Hx as (j & <- & Hj). apply in_seq. specialize (H j (I1 j Hj)). lia.
    + apply in_seq in Hx. destruct (H x) as (A & _ & _ & B); [lia|]. apply in_map_iff. exists (p x). split; auto.
      apply (Permutation_in _ (Permutation_sym P)). apply in_seq. lia.
Qed.

Lemma firstn_In : forall A n (l : list A) x, In x (firstn n l) -> In x l.
Proof. intros A n l x H. rewrite <- (firstn_skipn n l). apply in_app_iff. auto. Qed.

Lemma rep_nth : forall A (a : A) n i, i < n -> nth_error (repeat a n) i = Some a.
Proof. induction n; intros [|i] H; cbn; try lia; auto. apply IHn. lia. Qed.

(** ** reordered lists *)
Section Reordered.
  Variables (N : nat) (p r : nat -> nat).
  Hypothesis B : bijection N p r.

  Lemma reordered_map : forall A C (g : A -> C) l l', reordered N p l l' -> reordered N p (map g l) (map g l').
  Proof. intros A C g l l' (H1 & H2 & H3). split; [|split]; rewrite ?map_length; auto. intros i Hi. rewrite !nth_error_map, H3; auto. Qed.
  Lemma reordered_map2 : forall A C D (g : A -> C -> D) l l' k k', reordered N p l l' -> reordered N p k k' -> reordered N p (map2 g l k) (map2 g l' k').
  Proof.
    intros A C D g l l' k k' (H1 & H2 & H3) (G1 & G2 & G3). split; [|split].
    - rewrite map2_length. lia.
    - rewrite map2_length. lia.
    - intros i Hi. rewrite !map2_nth, H3, G3 by auto. auto.
  Qed.
  Lemma reordered_Permutation : forall A (l l' : list A), reordered N p l l' -> Permutation l l'.
  Proof.
    intros A l l' (H1 & H2 & H3). apply Permutation_nth_error. split; [congruence|].
    exists (fun i => if i <? N then p i else i). split.
    - intros i j. destruct (Nat.ltb_spec i N) as [Hi|Hi], (Nat.ltb_spec j N) as [Hj|Hj]; intros E; auto.
      + apply (bijection_inj N r p); auto. apply bijection_inv; auto.
      + destruct (B i Hi). lia.
      + destruct (B j Hj). lia.
    - intros i. destruct (Nat.ltb_spec i N) as [Hi|Hi]; auto. rewrite !(proj2 (nth_error_None _ _)); auto; lia.
  Qed.
  Lemma reordered_In : forall A (l l' : list A) v, reordered N p l l' -> In v l' -> In v l.
  Proof. intros A l l' v H. apply Permutation_in. apply Permutation_sym. apply reordered_Permutation; auto. Qed.

  Lemma takeM_ok : forall A (l : list A) idx, (forall j, In j idx -> j < length l) -> exists y, takeM l idx = Ok y.
  Proof.
    intros A l idx. unfold takeM. induction idx as [|j idx IH]; cbn; intros H; [eauto|].
    destruct IH as (y & Hy); [auto|]. destruct (nth_error_lt_Some _ l j (H j (or_introl eq_refl))) as (a & Ha).
    unfold take1. rewrite Ha. cbn. unfold take1 in Hy. rewrite Hy. cbn. eauto.
  Qed.

  Lemma reordered_takeM : forall A (l l' : list A) idx y, reordered N p l l' -> (forall j, In j idx -> j < N) ->
    takeM l idx = Ok y -> takeM l' (map r idx) = Ok y.
  Proof.
    intros A l l' idx y (H1 & H2 & H3) HI H.
    destruct (takeM_ok A l' (map r idx)) as (y' & Hy').
    { intros j Hj. apply in_map_iff in Hj. destruct Hj as (i & <- & Hi). rewrite H2. apply B. auto. }
    rewrite Hy'. f_equal. pose proof (takeM_length _ _ _ _ H) as L. pose proof (takeM_length _ _ _ _ Hy') as L'. rewrite map_length in L'.
    apply nth_error_ext. intros n. destruct (Nat.lt_ge_cases n (length idx)) as [Hn|Hn].
    - destruct (nth_error_lt_Some _ idx n Hn) as (j & Hj). assert (Hjn : j < N) by (apply HI; eapply nth_error_In; eauto).
      rewrite (takeM_nth _ _ _ _ _ _ H Hj). rewrite (takeM_nth _ _ _ _ n (r j) Hy') by (rewrite nth_error_map, Hj; auto).
      destruct (B j Hjn) as (_ & B2 & B3 & _). rewrite H3, B3; auto.
    - rewrite !(proj2 (nth_error_None _ _)); auto; lia.
  Qed.

  Lemma takeM_seq : forall A (l : list A) n, length l = n -> takeM l (seq 0 n) = Ok l.
  Proof.
    intros A l n H. destruct (takeM_ok A l (seq 0 n)) as (y & Hy); [intros j Hj; apply in_seq in Hj; lia|].
    rewrite Hy. f_equal. pose proof (takeM_length _ _ _ _ Hy) as L. rewrite seq_length in L.
    apply nth_error_ext. intros i. destruct (Nat.lt_ge_cases i n) as [Hi|Hi].
    - apply (takeM_nth _ _ _ _ _ _ Hy). rewrite nth_error_seq. destruct (Nat.ltb_spec i n); auto; lia.
    - rewrite !(proj2 (nth_error_None _ _)); auto; lia.
  Qed.

  Lemma last_index_map : forall i l, i < N -> (forall j, In j l -> j < N) -> last_index i (map r l) = last_index (p i) l.
  Proof.
    intros i l Hi. induction l as [|a l IH]; cbn; intros HI; auto. rewrite IH by auto.
    destruct (last_index (p i) l); auto.
    destruct (B i Hi) as (B1 & B2 & B3 & B4). destruct (B a (HI a (or_introl eq_refl))) as (A1 & A2 & A3 & A4).
    destruct (Nat.eqb_spec (r a) i), (Nat.eqb_spec a (p i)); auto; subst; congruence.
  Qed.

  Lemma put1_ok : forall A idx (old vals : list A), (forall j, In j idx -> j < length old) -> length vals = length idx ->
    exists y, put1 idx old vals = Ok y.
  Proof.
    intros A idx old vals HI HL. unfold put1. replace (forallb _ idx) with true.
    - rewrite bto_eq by auto. cbn. eauto.
    - symmetry. apply forallb_forall. intros j Hj. apply Nat.ltb_lt. auto.
  Qed.

  Lemma reordered_put1 : forall A idx (old old' vals y : list A), reordered N p old old' -> (forall j, In j idx -> j < N) -> length vals = length idx ->
    put1 idx old vals = Ok y -> exists y', put1 (map r idx) old' vals = Ok y' /\ reordered N p y y'.
  Proof.
    intros A idx old old' vals y (H1 & H2 & H3) HI HL H.
    destruct (put1_ok A (map r idx) old' vals) as (y' & Hy').
    { intros j Hj. apply in_map_iff in Hj. destruct Hj as (i & <- & Hi). rewrite H2. apply B. auto. }
    { rewrite map_length; auto. }
    exists y'. split; auto. pose proof (put1_length _ _ _ _ _ H). pose proof (put1_length _ _ _ _ _ Hy').
    split; [congruence|]. split; [congruence|]. intros i Hi.
    assert (HL' : length vals = length (map r idx)) by (rewrite map_length; auto).
    rewrite (put1_nth _ _ _ _ _ i HL' Hy'), (put1_nth _ _ _ _ _ (p i) HL H), last_index_map by auto.
    destruct (B i Hi) as (B1 & _). rewrite H1, H2. destruct (last_index (p i) idx); [|auto].
    destruct (Nat.ltb_spec i N), (Nat.ltb_spec (p i) N); auto; lia.
  Qed.

  Lemma put1_seq : forall A n (old vals : list A), length old = n -> length vals = n -> put1 (seq 0 n) old vals = Ok vals.
  Proof.
    intros A n old vals H1 H2. destruct (put1_ok A (seq 0 n) old vals) as (y & Hy); [intros j Hj; apply in_seq in Hj; lia|rewrite seq_length; auto|].
    assert (HL' : length vals = length (seq 0 n)) by (rewrite seq_length; auto).
    rewrite Hy. f_equal. apply nth_error_ext. intros i. rewrite (put1_nth _ _ _ _ _ i HL' Hy), last_index_seq, H1.
    destruct (Nat.ltb_spec i n); auto. rewrite !(proj2 (nth_error_None _ _)); auto; lia.
  Qed.
End Reordered.

Section Relabel.
  Context {K V : Type} {O : KOps K} {OL : KOrd K}.
  Notation F := (fl K).
  Notation st := (st K V).
  Notation cfg := (cfg K V).
  Notation orc := (orc V).
  Variables (p r : nat -> nat -> nat) (c : cfg).
  (** points, draws and parameters the laws are needed for *)
  Variables (PV : V -> Prop) (QO : orc -> Prop) (Q : st -> Prop).

  Record symmetric : Prop := {
    y_one : one_consensus_point c;
    y_plain : c_corr c = NoCorr;
    y_crit : Forall builtin (c_crit c);
    y_min : forall (l l' : list F) am am', Permutation l l' -> argmin l = Ok am -> argmin l' = Ok am' -> snd am' = snd am;
    y_cc : forall (s : st) m a X, Q s -> m < s_M s -> nth_error (s_alpha s) m = Some [a] -> X <> [] -> (forall v, In v X -> PV v) ->
      exists cp, c_ccrow c (map (c_f c) X) X a = [cp] /\ PV cp /\ forall X', Permutation X X' -> c_ccrow c (map (c_f c) X') X' a = [cp];
    y_moved : forall (s : st) o k n cp v, Q s -> QO o -> PV cp -> PV v -> PV (moved c s cp v (o_z o k n));
    y_pp : forall v, PV v -> PV (c_pp c v);
    y_norm : forall l l' k k', (forall v, In v l -> PV v) -> (forall v, In v l' -> PV v) -> (forall v, In v k -> PV v) -> (forall v, In v k' -> PV v) ->
      Permutation (map2 (c_vsub c) l l') (map2 (c_vsub c) k k') -> length l = length k ->
      c_norm c (map2 (c_vsub c) k k') = c_norm c (map2 (c_vsub c) l l');
    y_Q : forall s s' : st, s_alpha s' = s_alpha s -> s_lamda s' = s_lamda s -> s_dt s' = s_dt s -> s_sigma s' = s_sigma s -> s_M s' = s_M s -> Q s -> Q s' }.
  Hypothesis SY : symmetric.

  Definition rrel (N : nat) (pm : nat -> nat) (u u' : rowst (K := K) (V := V)) : Prop :=
    reordered N pm (r_x u) (r_x u') /\ reordered N pm (r_e u) (r_e u') /\ r_a u' = r_a u /\ r_be u' = r_be u /\
    r_nfe u' = r_nfe u /\ r_ud u' = r_ud u /\ r_fmin u' = r_fmin u.

  Lemma post_relabel : forall N pm rm xo xo' u u1 u', bijection N pm rm -> rrel N pm u u' -> reordered N pm xo xo' -> 0 < N ->
    (forall v, In v xo -> PV v) -> (forall v, In v (r_x u) -> PV v) ->
    run_post c xo u = Ok u1 ->
    exists u1', run_post c xo' u' = Ok u1' /\ rrel N pm u1 u1' /\ (forall v, In v (r_x u1) -> PV v).
  Proof.
    intros N pm rm xo xo' u u1 u' B (RX & RE & RA & RB & RN & RU & RF) RO HN Ho Hx H. unfold run_post in *.
    apply bind_ok in H. destruct H as (am & H1 & H). apply bind_ok in H. destruct H as (pt & H2 & H). apply bind_ok in H. destruct H as (e & H3 & H).
    destruct (r_e u') as [|e0 el] eqn:Ee; [destruct RE as (_ & RE & _); cbn in RE; lia|].
    destruct (argmin (e0 :: el)) as [am'|] eqn:Ham'; [|discriminate].
    cbn [bind].
    assert (Em : snd am' = snd am) by (apply (y_min SY _ _ _ _ (reordered_Permutation N pm rm B _ _ _ RE) H1 Ham')).
    destruct am as [j v]. destruct am' as [j' v']. cbn [fst snd] in *. subst v'.
    pose proof (argmin_nth _ _ _ H1) as An. pose proof (argmin_nth _ _ _ Ham') as An'.
    assert (Lj : j' < N) by (destruct RE as (_ & L & _); rewrite <- L; eapply nth_error_lt; eauto).
    unfold take1 in *. rewrite An in H3. injection H3 as <-. rewrite An'.
    destruct RO as (O1 & O2 & O3). assert (Lj2 : j' < length xo') by lia. destruct (nth_error_lt_Some _ _ _ Lj2) as (pt' & Hpt'). rewrite Hpt'. cbn [bind].
    eexists. split; [reflexivity|]. injection H as <-.
    assert (PX : forall v, In v (map (c_pp c) (r_x u)) -> PV v).
    { intros q Hq. apply in_map_iff in Hq. destruct Hq as (w & <- & Hw). apply (y_pp SY). auto. }
    split; [|exact PX].
    unfold rrel. cbn [r_x r_e r_a r_be r_nfe r_ud r_fmin].
    assert (RP : reordered N pm (map (c_pp c) (r_x u)) (map (c_pp c) (r_x u'))) by (apply reordered_map; auto).
    assert (ROO : reordered N pm xo xo') by (split; [|split]; auto).
    repeat split; try apply RP; try apply RE; auto.
    - rewrite RB. auto.
    - symmetry. symmetry. apply (y_norm SY); auto.
      + intros q Hq. apply PX. exact (reordered_In N pm rm B _ _ _ _ RP Hq).
      + intros q Hq. apply Ho. exact (reordered_In N pm rm B _ _ _ _ ROO Hq).
      + apply (reordered_Permutation N pm rm B). apply reordered_map2; auto.
      + rewrite (proj1 RP), (proj1 (proj2 RP)). auto.
  Qed.

  (** a selection of particles and its relabelling: all particles, or the same particles in the same order *)
  Definition selrel (N : nat) (rm : nat -> nat) (sl sl' : list nat) : Prop :=
    (sl = seq 0 N /\ sl' = seq 0 N) \/ (sl' = map rm sl /\ (forall j, In j sl -> j < N) /\ length sl <= N).

  Lemma move_relabel : forall N pm rm (s s' : st) m o k (z' : nat -> V) u u' sl slp sl' slp' u1 cp d,
    bijection N pm rm -> Q s -> QO o ->
    s_lamda s' = s_lamda s -> s_dt s' = s_dt s -> s_sigma s' = s_sigma s -> row_at s m = Some u -> m < s_M s -> 0 < N -> sl <> [] ->
    rrel N pm u u' -> (forall v, In v (r_x u) -> PV v) -> selrel N rm sl sl' ->
    ((slp = seq 0 N /\ slp' = seq 0 N /\ forall n, n < N -> z' n = o_z o k (pm n)) \/
     (slp' = map rm slp /\ (forall j, In j slp -> j < N) /\ length slp <= N /\ forall n, n < N -> z' n = o_z o k n)) ->
    run_move c (s_lamda s) (s_dt s) (s_sigma s) sl slp (o_z o k) u = Ok (u1, (cp, d)) ->
    exists u1' d', run_move c (s_lamda s') (s_dt s') (s_sigma s') sl' slp' z' u' = Ok (u1', (cp, d')) /\
      rrel N pm u1 u1' /\ (forall v, In v (r_x u1) -> PV v).
  Proof.
    intros N pm rm s s' m o k z' u u' sl slp sl' slp' u1 cp d B HQ HO P1 P2 P3 Hr Hm HN Hsl (RX & RE & RA & RB & RN & RU & RF) Hx HS HSP H.
    unfold run_move in *. rewrite RA, P1, P2, P3.
    destruct (r_a u) as [|a [|]] eqn:Ea; try discriminate.
    apply bind_ok in H. destruct H as (xb & HB & H). apply bind_ok in H. destruct H as (er & HE & H).
    apply bind_ok in H. destruct H as (xp & HP & H). cbv zeta in H. apply bind_ok in H. destruct H as (xr & HX & H).
    assert (PB : forall v, In v xb -> PV v) by (intros v Hv; apply Hx; exact (takeM_In _ _ _ _ _ HB Hv)).
    assert (PP : forall v, In v xp -> PV v) by (intros v Hv; apply Hx; exact (takeM_In _ _ _ _ _ HP Hv)).
    assert (NB : xb <> []).
    { intros ->. apply takeM_length in HB. destruct sl; [congruence|discriminate]. }
    assert (Ea' : nth_error (s_alpha s) m = Some [a]). { destruct (row_at_fields _ _ _ Hr) as (_ & E2 & _). rewrite E2, Ea. auto. }
    destruct (y_cc SY s m a xb HQ Hm Ea' NB PB) as (q & C1 & PQ & C2). rewrite C1 in *.
    assert (XB : exists xb' er', takeM (r_x u') sl' = Ok xb' /\ Permutation xb xb' /\ put1 sl' (r_e u') (map (c_f c) xb') = Ok er' /\ reordered N pm er er' /\ length sl' = length sl).
    { destruct HS as [(-> & ->) | (-> & HJ & _)].
      - rewrite takeM_seq in HB by apply RX. injection HB as <-. rewrite put1_seq in HE by (rewrite ?map_length; try apply RX; apply RE). injection HE as <-.
        exists (r_x u'), (map (c_f c) (r_x u')). rewrite takeM_seq by apply RX. split; [reflexivity|]. split; [exact (reordered_Permutation N pm rm B _ _ _ RX)|].
        rewrite put1_seq by (rewrite ?map_length; try apply RX; apply RE). split; [reflexivity|]. split; [apply reordered_map; auto|auto].
      - exists xb. destruct (reordered_put1 N pm rm B _ sl _ _ (map (c_f c) xb) er RE HJ) as (er' & E1 & E2); auto.
        { rewrite map_length. apply (takeM_length _ _ _ _ HB). }
        exists er'. split; [apply (reordered_takeM N pm rm B _ _ _ _ _ RX HJ HB)|]. split; [apply Permutation_refl|]. split; [auto|]. split; [auto|apply map_length]. }
    destruct XB as (xb' & er' & T1 & T2 & T3 & T4 & T5). rewrite T1. cbn [bind]. rewrite T3. cbn [bind].
    rewrite (C2 _ T2).
    assert (EU : forall (z : nat -> V) l, map2 (c_vadd c) l (mapi (fun n v => cbo_update c v (s_lamda s) (s_dt s) (s_sigma s) (c_noise c (s_dt s) v (z n))) (map (fun v => c_vsub c v q) l)) =
       mapi (fun n v => moved c s q v (z n)) l).
    { intros. apply nth_error_ext. intros n. rewrite map2_nth, !mapi_nth, nth_error_map. destruct (nth_error l n); reflexivity. }
    rewrite rowop_one, (EU (o_z o k)) in HX.
    assert (LL : length (mapi (fun n v => moved c s q v (o_z o k n)) xp) = length slp).
    { rewrite mapi_length. apply (takeM_length _ _ _ _ HP). }
    assert (XP : exists xp' xr', takeM (r_x u') slp' = Ok xp' /\ put1 slp' (r_x u') (mapi (fun n v => moved c s q v (z' n)) xp') = Ok xr' /\ reordered N pm xr xr').
    { destruct HSP as [(-> & -> & HZ) | (-> & HJ & HL & HZ)].
      - rewrite takeM_seq in HP by apply RX. injection HP as <-. rewrite put1_seq in HX by (rewrite ?mapi_length; apply RX). injection HX as <-.
        exists (r_x u'). eexists. rewrite takeM_seq by apply RX. split; [reflexivity|]. rewrite put1_seq by (rewrite ?mapi_length; apply RX). split; [reflexivity|].
        split; [rewrite mapi_length; apply RX|]. split; [rewrite mapi_length; apply RX|]. intros i Hi. rewrite !mapi_nth, HZ by auto. rewrite (proj2 (proj2 RX)) by auto. auto.
      - exists xp.
        assert (EZ : mapi (fun n v => moved c s q v (z' n)) xp = mapi (fun n v => moved c s q v (o_z o k n)) xp).
        { apply nth_error_ext. intros n. rewrite !mapi_nth. destruct (nth_error xp n) eqn:En; auto. cbn. rewrite HZ; auto.
          apply nth_error_lt in En. rewrite (takeM_length _ _ _ _ HP) in En. lia. }
        rewrite EZ. destruct (reordered_put1 N pm rm B _ slp _ _ _ xr RX HJ LL HX) as (xr' & E1 & E2).
        exists xr'. split; [apply (reordered_takeM N pm rm B _ _ _ _ _ RX HJ HP)|auto]. }
    destruct XP as (xp' & xr' & U1 & U2 & U3). rewrite U1. cbn [bind]. rewrite rowop_one, EU, U2. cbn [bind].
    injection H as <- <- <-. eexists. eexists. split; [reflexivity|]. split.
    - unfold rrel. cbn [r_x r_e r_a r_be r_nfe r_ud r_fmin]. rewrite T5, RN. split; [exact U3|]. split; [exact T4|]. auto.
    - cbn [r_x]. intros v Hv. apply In_nth_error in Hv. destruct Hv as (n & Hn).
      rewrite (put1_nth _ _ _ _ _ n LL HX) in Hn. destruct (last_index n slp) as [i|].
      + destruct (n <? length (r_x u)); [|discriminate]. rewrite mapi_nth in Hn. destruct (nth_error xp i) as [w|] eqn:Eu; [|discriminate].
        injection Hn as <-. apply (y_moved SY); auto. apply PP. eapply nth_error_In; eauto.
      + apply Hx. eapply nth_error_In; eauto.
  Qed.

  Lemma rel_row : forall s s' m u, relabelled p r s s' -> wf c s' -> m < s_M s -> row_at s m = Some u ->
    exists u', row_at s' m = Some u' /\ rrel (s_N s) (p m) u u'.
  Proof.
    intros s s' m u H W' Hm Hr. destruct (row_at_lt _ _ _ Hr) as (_ & A1 & A2 & A3 & A4 & A5 & A6 & A7 & A8 & _).
    destruct (row_at_Some c s' m W') as (u' & Hr' & _); [rewrite (rl_M _ _ _ _ H); auto|].
    destruct (row_at_lt _ _ _ Hr') as (_ & B1 & B2 & B3 & B4 & B5 & B6 & B7 & B8 & _).
    exists u'. split; auto. destruct H.
    destruct rl_x as (_ & _ & RX). destruct (RX m Hm) as (x & x' & X1 & X2 & X3). rewrite A1 in X1. rewrite B1 in X2. injection X1 as <-. injection X2 as <-.
    destruct rl_energy as (_ & _ & RE). destruct (RE m Hm) as (x & x' & X1 & X2 & X4). rewrite A2 in X1. rewrite B2 in X2. injection X1 as <-. injection X2 as <-.
    unfold rrel. split; auto. split; auto. repeat split; congruence.
  Qed.

  Lemma wf_shape_ind : forall s, wf c s -> c_bsize c <> s_N s -> forall m row, nth_error (s_ind s) m = Some row -> length row = shape1 (s_ind s).
  Proof. intros s W Hb m row H. destruct (w_ind _ _ W Hb) as (_ & L & _). eapply L; eauto. Qed.

  Lemma rel_shape_ind : forall s s', wf c s -> wf c s' -> relabelled p r s s' -> c_bsize c <> s_N s -> 0 < s_M s -> shape1 (s_ind s') = shape1 (s_ind s).
  Proof.
    intros s s' W W' H Hb HM. destruct (w_ind _ _ W Hb) as (L & L2 & _).
    assert (Hb' : c_bsize c <> s_N s') by (rewrite (rl_N _ _ _ _ H); auto). destruct (w_ind _ _ W' Hb') as (L' & L2' & _).
    assert (H0 : 0 < length (s_ind s)) by lia. destruct (nth_error_lt_Some _ _ _ H0) as (row & Hrow).
    pose proof (rl_ind _ _ _ _ H 0 HM) as E. rewrite Hrow in E. cbn [option_map] in E.
    rewrite <- (L2 _ _ Hrow), <- (L2' 0 _ E). apply map_length.
  Qed.

  Theorem step_relabel : forall s log s' log' o o' s1 s1', exec c s log -> exec c s' log' -> (forall m, m < s_M s -> bijection (s_N s) (p m) (r m)) ->
    perms_valid o s -> Q s -> QO o -> relabelled_draws p r c s o o' ->
    (forall row v, In row (s_x s) -> In v row -> PV v) -> relabelled p r s s' ->
    step c o s = Ok s1 -> step c o' s' = Ok s1' ->
    perms_valid o' s' /\ relabelled p r s1 s1' /\ (forall row v, In row (s_x s1) -> In v row -> PV v).
  Proof.
    intros s log s' log' o o' s1 s1' E E' BJ P HQ HO [DP DZ] HPV RL HS HS'.
    pose proof (exec_wf _ _ _ E) as W. pose proof (exec_wf _ _ _ E') as W'.
    pose proof (rl_M _ _ _ _ RL) as RM. pose proof (rl_N _ _ _ _ RL) as RN. pose proof (rl_active _ _ _ _ RL) as RAC.
    assert (P' : perms_valid o' s').
    { intros m Hm. rewrite RM in Hm. rewrite RN, DP by auto. apply (bijection_perm _ (p m)); auto. }
    split; auto.
    pose proof (y_one SY) as G. pose proof (y_plain SY) as NC.
    destruct (step_char c o s W (perms_valid_ok _ _ P) (or_introl G) NC) as
      (t & HSt & Wt & (M1 & N1 & Al1 & Sg1 & La1 & D1 & T1 & I1 & Ac1 & _) & Hi1 & Hi2 & (cp & d & Ec & Ed & Lc & _ & Hact) & Hina & _).
    rewrite HS in HSt. injection HSt as <-.
    destruct (step_char c o' s' W' (perms_valid_ok _ _ P') (or_introl G) NC) as
      (t & HSt & Wt' & (M1' & N1' & Al1' & Sg1' & La1' & D1' & T1' & I1' & Ac1' & _) & Hi1' & Hi2' & (cp' & d' & Ec' & Ed' & Lc' & _ & Hact') & Hina' & _).
    rewrite HS' in HSt. injection HSt as <-.
    destruct (rl_par _ _ _ _ RL) as (Pa1 & Pa2 & Pa3). destruct (rl_time _ _ _ _ RL) as (Tm1 & Tm2).
    assert (HN : 0 < s_N s) by apply W.
    assert (IN : c_bsize c <> s_N s -> forall m, m < s_M s -> ind_next c o' s' m = map (r m) (ind_next c o s m) /\ (forall j, In j (ind_next c o s m) -> j < s_N s)).
    { intros Hb m Hm. destruct (w_ind _ _ W Hb) as (L & L2 & L3). assert (Lm : m < length (s_ind s)) by lia.
      destruct (nth_error_lt_Some _ _ _ Lm) as (row & Hrow). pose proof (rl_ind _ _ _ _ RL m Hm) as RI. rewrite Hrow in RI. cbn [option_map] in RI.
      unfold ind_next. rewrite (rel_shape_ind s s' W W' RL Hb) by lia. rewrite (nth_error_nth _ _ _ RI), (nth_error_nth _ _ _ Hrow), DP by auto.
      assert (JP : forall j, In j (o_perm o m) -> j < s_N s). { intros j Hj. apply (perms_valid_ok _ _ P m Hm). auto. }
      assert (JR : forall j, In j row -> j < s_N s) by (intros j Hj; eapply L3; eauto).
      destruct (shape1 (s_ind s) <? c_bsize c); [destruct (c_concat c)|]; split; auto.
      - rewrite map_app. auto.
      - intros j Hj. apply in_app_iff in Hj. destruct Hj; auto. }
    assert (SL : forall m, m < s_M s -> selrel (s_N s) (r m) (run_sel c o s m) (run_sel c o' s' m)).
    { intros m Hm. unfold run_sel, selrel. rewrite RN. destruct (Nat.eqb_spec (c_bsize c) (s_N s)) as [Hb|Hb]; [auto|].
      right. destruct (IN Hb m Hm) as [IE IJ]. rewrite IE, firstn_map. split; auto. split.
      - intros j Hj. apply IJ. eapply firstn_In; eauto.
      - rewrite firstn_length. pose proof (w_bs _ _ W). lia. }
    assert (SLP : forall k m, nth_error (s_active s) k = Some m -> m < s_M s ->
      (run_selp c o s m = seq 0 (s_N s) /\ run_selp c o' s' m = seq 0 (s_N s) /\ forall n, n < s_N s -> o_z o' k n = o_z o k (p m n)) \/
      (run_selp c o' s' m = map (r m) (run_selp c o s m) /\ (forall j, In j (run_selp c o s m) -> j < s_N s) /\ length (run_selp c o s m) <= s_N s /\
       forall n, n < s_N s -> o_z o' k n = o_z o k n)).
    { intros k m Hk Hm. unfold run_selp. rewrite RN. pose proof (fun n => DZ k m n Hk) as DZ'. destruct (Nat.eqb_spec (c_bsize c) (s_N s)) as [Hb|Hb]; [left; auto|].
      destruct (c_partial c); [|left; auto]. right. cbn [negb andb] in DZ'. destruct (IN Hb m Hm) as [IE IJ]. rewrite IE, firstn_map. split; auto. split; [|split]; auto.
      - intros j Hj. apply IJ. eapply firstn_In; eauto.
      - rewrite firstn_length. pose proof (w_bs _ _ W). lia. }
    assert (Hsln : forall m, m < s_M s -> run_sel c o s m <> []).
    { intros m Hm Hnil. pose proof (run_sel_length c o s m W (perms_valid_ok _ _ P) Hm) as L. rewrite Hnil in L. pose proof (w_bs _ _ W). cbn in L. lia. }
    assert (ROW : forall m, m < s_M s -> exists u u', row_at s1 m = Some u /\ row_at s1' m = Some u' /\ rrel (s_N s) (p m) u u' /\ (forall v, In v (r_x u) -> PV v) /\
              forall k, nth_error (s_active s) k = Some m -> exists q, nth_error cp k = Some q /\ nth_error cp' k = Some q).
    { intros m Hm. destruct (row_at_Some c s m W Hm) as (u & Er & _).
      destruct (rel_row s s' m u RL W' Hm Er) as (u' & Er' & RR).
      assert (PX : forall v, In v (r_x u) -> PV v).
      { intros v Hv. destruct (row_at_fields _ _ _ Er) as (A1 & _). eapply HPV; eauto. eapply nth_error_In; eauto. }
      destruct (in_dec Nat.eq_dec m (s_active s)) as [Hin|Hni].
      - destruct (In_nth_error _ _ Hin) as (k & Hk).
        destruct (Hact _ _ _ Hk Er) as (u1 & cpr & dr & u2 & Q1 & Q2 & Q3 & Q4 & Q5).
        assert (Hk' : nth_error (s_active s') k = Some m) by congruence.
        destruct (Hact' _ _ _ Hk' Er') as (u1' & cpr' & dr' & u2' & Q1' & Q2' & Q3' & Q4' & Q5').
        destruct (move_relabel (s_N s) (p m) (r m) s s' m o k (o_z o' k) u u' _ _ _ _ u1 cpr dr (BJ m Hm) HQ HO Pa2 Pa3 Pa1 Er Hm HN (Hsln m Hm) RR PX (SL m Hm) (SLP k m Hk Hm) Q1)
          as (v1 & dv & MM & RR1 & PX1).
        rewrite MM in Q1'. injection Q1' as <- <- <-.
        destruct (post_relabel (s_N s) (p m) (r m) (r_x u) (r_x u') u1 u2 v1 (BJ m Hm) RR1 (proj1 RR) HN PX PX1 Q4) as (v2 & PM & RR2 & PX2).
        rewrite PM in Q4'. injection Q4' as <-.
        exists u2, v2. split; auto. split; auto. split; auto. split; auto.
        intros k2 Hk2. assert (k2 = k). { apply (proj1 (NoDup_nth_error (s_active s))); [apply incr_NoDup; apply W| eapply nth_error_lt; eauto|congruence]. }
        subst k2. eauto.
      - destruct (Hina _ _ Hni Er) as (u2 & Q4 & Q5).
        assert (Hni' : ~ In m (s_active s')) by congruence.
        destruct (Hina' _ _ Hni' Er') as (u2' & Q4' & Q5').
        destruct (post_relabel (s_N s) (p m) (r m) (r_x u) (r_x u') u u2 u' (BJ m Hm) RR (proj1 RR) HN PX PX Q4) as (v2 & PM & RR2 & PX2).
        rewrite PM in Q4'. injection Q4' as <-.
        exists u2, v2. split; auto. split; auto. split; auto. split; auto. intros k Hk. exfalso. apply Hni. eapply nth_error_In; eauto. }
    assert (RF : forall m, m < s_M s -> exists u u', row_at s1 m = Some u /\ row_at s1' m = Some u' /\ rrel (s_N s) (p m) u u').
    { intros m Hm. destruct (ROW m Hm) as (u & u' & H1 & H2 & H3 & _). eauto. }
    split.
    - constructor; try congruence.
      + rewrite M1, N1. split; [rewrite (proj1 (w_x _ _ Wt)); auto|]. split; [rewrite (proj1 (w_x _ _ Wt')); congruence|].
        intros m Hm. destruct (RF m Hm) as (u & u' & H1 & H2 & H3 & _). apply row_at_lt in H1, H2. destruct H1 as (_ & H1 & _), H2 as (_ & H2 & _). eauto.
      + rewrite M1, N1. split; [rewrite (proj1 (w_e _ _ Wt)); auto|]. split; [rewrite (proj1 (w_e _ _ Wt')); congruence|].
        intros m Hm. destruct (RF m Hm) as (u & u' & H1 & H2 & _ & H3 & _). apply row_at_lt in H1, H2. destruct H1 as (_ & _ & H1 & _), H2 as (_ & _ & H2 & _). eauto.
      + apply (rows_eq _ _ _ (s_M s)); [rewrite (w_be _ _ Wt); auto|rewrite (w_be _ _ Wt'); congruence|].
        intros m Hm. destruct (RF m Hm) as (u & u' & H1 & H2 & _ & _ & _ & H3 & _). apply row_at_lt in H1, H2. destruct H1 as (_ & _ & _ & _ & -> & _), H2 as (_ & _ & _ & _ & -> & _). congruence.
      + apply (rows_eq _ _ _ (s_M s)); [rewrite (w_fmin _ _ Wt); auto|rewrite (w_fmin _ _ Wt'); congruence|].
        intros m Hm. destruct (RF m Hm) as (u & u' & H1 & H2 & _ & _ & _ & _ & _ & _ & H3). apply row_at_lt in H1, H2. destruct H1 as (_ & _ & _ & _ & _ & _ & _ & _ & -> & _), H2 as (_ & _ & _ & _ & _ & _ & _ & _ & -> & _). congruence.
      + apply (rows_eq _ _ _ (s_M s)); [rewrite (w_ud _ _ Wt); auto|rewrite (w_ud _ _ Wt'); congruence|].
        intros m Hm. destruct (RF m Hm) as (u & u' & H1 & H2 & _ & _ & _ & _ & _ & H3 & _). apply row_at_lt in H1, H2. destruct H1 as (_ & _ & _ & _ & _ & _ & _ & -> & _), H2 as (_ & _ & _ & _ & _ & _ & _ & -> & _). congruence.
      + apply (rows_eq _ _ _ (s_M s)); [rewrite (w_nfe _ _ Wt); auto|rewrite (w_nfe _ _ Wt'); congruence|].
        intros m Hm. destruct (RF m Hm) as (u & u' & H1 & H2 & _ & _ & _ & _ & H3 & _). apply row_at_lt in H1, H2. destruct H1 as (_ & _ & _ & _ & _ & _ & -> & _), H2 as (_ & _ & _ & _ & _ & _ & -> & _). congruence.
      + rewrite Ec, Ec'. f_equal. apply (rows_eq _ _ _ (length (s_active s))); [auto|congruence|].
        intros k Hk. destruct (nth_error_lt_Some _ _ _ Hk) as (m & Hm). assert (m < s_M s) by (apply W; eapply nth_error_In; eauto).
        destruct (ROW m H) as (u & u' & _ & _ & _ & _ & HC). destruct (HC k Hm) as (q & H3 & H4). rewrite H3, H4. reflexivity.
      + rewrite M1. intros m Hm. destruct (Nat.eq_dec (c_bsize c) (s_N s)) as [Hb|Hb]; [rewrite (Hi1 Hb), Hi1' by congruence; apply (rl_ind _ _ _ _ RL); auto|].
        assert (Hb' : c_bsize c <> s_N s') by congruence.
        rewrite (Hi2 Hb m Hm), (Hi2' Hb') by congruence. cbn. rewrite (proj1 (IN Hb m Hm)). rewrite skipn_map. auto.
      + rewrite Al1, Al1'. apply RL.
      + rewrite Sg1, Sg1', La1, La1', D1, D1'. auto.
      + rewrite T1, T1', I1, I1'. split; congruence.
    - intros row v Hr Hv. apply In_nth_error in Hr. destruct Hr as (m & Hm).
      assert (Lm : m < s_M s). { rewrite <- M1, <- (proj1 (w_x _ _ Wt)). eapply nth_error_lt; eauto. }
      destruct (ROW m Lm) as (u & u' & H1 & _ & _ & H2 & _). apply row_at_lt in H1. destruct H1 as (_ & H1 & _). rewrite H1 in Hm. injection Hm as <-. auto.
  Qed.

  Lemma term_relabel : forall s s' b b' s1 s1', wf c s -> wf c s' -> relabelled p r s s' ->
    terminate c s = Ok (b, s1) -> terminate c s' = Ok (b', s1') -> relabelled p r s1 s1' /\ b = b'.
  Proof.
    intros s s' b b' s1 s1' W W' RL H H'.
    assert (MS : forall m, meets_some c s' m = meets_some c s m).
    { intros m. unfold meets_some. pose proof (y_crit SY) as HB. revert HB. generalize (c_crit c). induction 1 as [|k ks Hk _ IH]; cbn [existsb]; auto.
      rewrite IH. f_equal. destruct (rl_time _ _ _ _ RL) as (Tm1 & Tm2).
      destruct k as [tol|tol|B|[n|]|T|g]; cbn in Hk; try contradiction; cbn [holds]; rewrite ?Tm1, ?Tm2, ?(rl_udiff _ _ _ _ RL), ?(rl_nfe _ _ _ _ RL), ?(rl_fmin _ _ _ _ RL); auto. }
    destruct (terminate_spec c s b s1 W H) as (A1 & A2 & _ & A3). destruct (terminate_spec c s' b' s1' W' H') as (B1 & B2 & _ & B3).
    rewrite (rl_M _ _ _ _ RL) in *.
    assert (EA : s_active s1' = s_active s1). { rewrite A1, B1. apply filter_ext. intros m. rewrite MS. auto. }
    split.
    - clear - A3 B3 EA RL. rewrite A3, B3. revert EA. generalize (s_reason s1') (s_active s1') (s_reason s1) (s_active s1). intros r1 a1 r2 a2 ->.
      destruct RL. destruct s, s'. constructor; cbn in *; auto.
    - assert (X : b = true <-> b' = true). { rewrite A2, B2. split; intros HH m Hm; [rewrite MS|rewrite <- MS]; auto. }
      destruct b, b'; intuition congruence.
  Qed.

  Lemma init_relabel : forall x0 x0' checked alpha sigma lamda dt perm0 perm0' names extra save s s',
    is_array (length x0) (shape1 x0) x0 -> 1 <= shape1 x0 -> rows_reordered (length x0) (shape1 x0) p x0 x0' ->
    (forall m, m < length x0 -> perm0' m = map (r m) (perm0 m)) ->
    (forall m, m < length x0 -> bijection (shape1 x0) (p m) (r m)) ->
    init c x0 checked alpha sigma lamda dt perm0 names extra save = Ok s ->
    init c x0' checked alpha sigma lamda dt perm0' names extra save = Ok s' ->
    relabelled p r s s' /\ s_x s = x0 /\ s_M s = length x0 /\ s_N s = shape1 x0 /\ length x0' = length x0 /\ shape1 x0' = shape1 x0.
  Proof.
    intros x0 x0' checked alpha sigma lamda dt perm0 perm0' names extra save s s' HA HN RX HP BJ H1 H2.
    assert (LX : length x0' = length x0) by (destruct RX as (_ & RX & _); exact RX).
    assert (LN : shape1 x0' = shape1 x0).
    { destruct x0 as [|row x0]; [destruct x0'; [reflexivity|discriminate]|]. destruct RX as (_ & _ & RX). destruct (RX 0) as (a & a' & E1 & E2 & E3); [cbn; lia|].
      destruct x0' as [|row' x0']; [discriminate|]. cbn in E1, E2. injection E1 as <-. injection E2 as <-. cbn in *. apply E3. }
    unfold init in H1, H2. apply bind_ok in H1, H2. destruct H1 as (bp & B1 & H1). destruct H2 as (bpt & B2 & H2).
    rewrite LX, LN in H2.
    injection H1 as E1. injection H2 as E2.
    match type of E1 with init_history _ _ _ ?s1 = _ => destruct (init_history_char names extra save s1) as (ts & h & E & _ & _) end.
    rewrite E in E1. clear E. rewrite <- E1. clear E1 s.
    match type of E2 with init_history _ _ _ ?s1 = _ => destruct (init_history_char names extra save s1) as (ts2 & h2 & E & _ & _) end.
    rewrite E in E2. clear E. rewrite <- E2. clear E2 s'.
    split; [|repeat split; auto].
    constructor; cbn; auto.
    - split; [apply repeat_length|]. split; [apply repeat_length|]. intros m Hm.
      exists (repeat PInf (shape1 x0)), (repeat PInf (shape1 x0)). rewrite (rep_nth _ _ _ _ Hm). split; [reflexivity|]. split; [reflexivity|].
      split; [apply repeat_length|]. split; [apply repeat_length|]. intros i Hi. rewrite !rep_nth; auto. apply (BJ m Hm i Hi).
    - intros m Hm. destruct (c_bsize c =? shape1 x0); [destruct m; reflexivity|].
      rewrite !nth_error_map, nth_error_seq. destruct (Nat.ltb_spec m (length x0)); cbn; [f_equal; auto|lia].
  Qed.

  Lemma rows_array : forall A M N (q : nat -> nat -> nat) (X X' : list (list A)), rows_reordered M N q X X' -> is_array M N X'.
  Proof.
    intros A M N q X X' (_ & L & H). split; auto. apply Forall_forall. intros row Hr. apply In_nth_error in Hr. destruct Hr as (m & Hm).
    destruct (H m) as (a & a' & _ & E & E3); [rewrite <- L; eapply nth_error_lt; eauto|]. rewrite E in Hm. injection Hm as <-. apply E3.
  Qed.

  Theorem relabelled_gen : forall s s', relabelled_runs p r c (fun t => Q t /\ (forall row v, In row (s_x t) -> In v row -> PV v)) QO s s' ->
    (exists log log', exec c s log /\ exec c s' log') /\ Q s /\ (forall row v, In row (s_x s) -> In v row -> PV v) /\
    (forall m, m < s_M s -> bijection (s_N s) (p m) (r m)) /\ relabelled p r s s'.
  Proof.
    intros s s' H.
    induction H as [x0 x0' chk al sg la dt perm0 perm0' names extra save s s' HA HN HB HX HP HP' HSV HI HI' [HQ HV] BJ
      |s s' o o' s1 s1' H ((log & log' & E & E') & HQ & HV & BJ & RL) P HO HD HS HS'
      |s s' b b' s1 s1' H ((log & log' & E & E') & HQ & HV & BJ & RL) HT HT'
      |s s' al sg la d H ((log & log' & E & E') & HQ & HV & BJ & RL) HAL [HQ2 HV2]
      |s s' H ((log & log' & E & E') & HQ & HV & BJ & RL)].
    - assert (MN : s_M s = length x0 /\ s_N s = shape1 x0).
      { clear - HI. unfold init in HI. apply bind_ok in HI. destruct HI as (bp & B1 & H1). injection H1 as E1.
        match type of E1 with init_history _ _ _ ?s1 = _ => destruct (init_history_char names extra save s1) as (ts & h & E & _ & _) end.
        rewrite E in E1. rewrite <- E1. auto. }
      destruct MN as [MM NN]. rewrite MM, NN in BJ.
      destruct (init_relabel _ _ _ _ _ _ _ _ _ _ _ _ _ _ HA HN HX HP' BJ HI HI') as (RL & EX & _ & _ & LX & LN).
      split; [|rewrite MM, NN; auto]. exists [], []. split.
      + apply ex_init. exists x0, chk, al, sg, la, dt, perm0, names, extra, save. repeat (split; [assumption|]). assumption.
      + apply ex_init. exists x0', chk, al, sg, la, dt, perm0', names, extra, save. rewrite LX, LN. split; [eapply rows_array; eauto|].
        split; [assumption|]. split; [assumption|]. split; [|split; assumption].
        intros m Hm. rewrite HP' by auto. apply (bijection_perm _ (p m)); auto.
    - destruct (step_relabel s log s' log' o o' s1 s1' E E' BJ P HQ HO HD HV RL HS HS') as (P' & RL2 & HV2).
      destruct (step_char c o s (exec_wf _ _ _ E) (perms_valid_ok _ _ P) (or_introl (y_one SY)) (y_plain SY)) as
          (t & HSt & _ & (M1 & N1 & Al1 & Sg1 & La1 & D1 & _) & _).
      rewrite HS in HSt. injection HSt as <-.
      split; [|split; [|split; [|split]]]; auto.
      + exists (log ++ evaluated s s1), (log' ++ evaluated s' s1'). split; econstructor; eauto.
      + apply (y_Q SY s); auto.
      + rewrite M1, N1. auto.
    - destruct (term_relabel s s' b b' s1 s1' (exec_wf _ _ _ E) (exec_wf _ _ _ E') RL HT HT') as [RL2 _].
      destruct (terminate_char _ _ _ _ HT) as (act & reason & ES & _).
      split; [exists log, log'; split; econstructor; eauto|]. split; [|split; [|split]]; auto.
      + apply (y_Q SY s); auto; rewrite ES; destruct s; reflexivity.
      + rewrite ES. destruct s; auto.
      + rewrite ES. destruct s; auto.
    - split; [exists log, log'; split|].
      + eapply ex_params; eauto. exists al, sg, la, d. split; auto.
      + eapply ex_params; eauto. exists al, sg, la, d. rewrite (rl_M _ _ _ _ RL). split; auto.
      + split; auto. split; auto. split; [destruct s; auto|]. destruct RL. destruct s, s'. constructor; cbn in *; auto.
    - destruct (reset_char s) as (ts & h & E1 & _). destruct (reset_char s') as (ts2 & h2 & E2 & _).
      split; [exists log, log'; split; apply ex_reset; auto|]. split; [|split; [|split]].
      + apply (y_Q SY s); auto; rewrite E1; destruct s; reflexivity.
      + rewrite E1. destruct s; auto.
      + rewrite E1. destruct s; auto.
      + rewrite E1, E2. destruct RL. destruct s, s'. constructor; cbn in *; auto.
  Qed.
End Relabel.
