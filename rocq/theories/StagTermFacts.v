(** * The stagnation criterion: when it fires, and that it cannot be used with several runs *)
From Coq Require Import List Arith Bool Reals Lra Lia Permutation.
From Verif Require Import Scalar Np NpFacts State Pdyn Exec PdynFacts PdynStep PdynOk StepFrame Consensus ConsSpec ConsFacts RVec RVecFacts PolarFacts RegFacts Cbo CboFacts Constraints HyperFacts Stagnation StagSpec.
Import ListNotations.
Open Scope nat_scope.

(** ** standard deviations *)
Lemma Rsum_perm : forall l l', Permutation l l' -> Rsum l = Rsum l'.
Proof. induction 1; rewrite ?Rsum_cons; auto; try lra; congruence. Qed.
Lemma rstd_perm : forall l l', Permutation l l' -> rstd l = rstd l'.
Proof.
  intros l l' H. unfold rstd, rmean. rewrite (Rsum_perm _ _ H), (Permutation_length H). f_equal. f_equal. apply Rsum_perm. apply Permutation_map. auto.
Qed.
Lemma fmean_fin : forall l, l <> [] -> fmean (floats l) = Fin (rmean l).
Proof.
  intros l H. unfold fmean, floats. rewrite fsum_fin, map_length. rewrite fdiv_fin. auto. apply not_0_INR. destruct l; [congruence|discriminate].
Qed.
Lemma Rsum_sq_nonneg : forall l, (forall a, In a l -> 0 <= a)%R -> (0 <= Rsum l)%R.
Proof. induction l; intros H. cbn; lra. rewrite Rsum_cons. pose proof (H a (or_introl eq_refl)). assert (0 <= Rsum l)%R by (apply IHl; intros; apply H; right; auto). lra. Qed.
Lemma fstd_fin : forall l, l <> [] -> fstd (floats l) = Fin (rstd l).
Proof.
  intros l H. unfold fstd. rewrite fmean_fin by auto.
  replace (map (fun a => fmul (fsub a (Fin (rmean l))) (fsub a (Fin (rmean l)))) (floats l)) with (floats (map (fun a => (a - rmean l) ^ 2)%R l)).
  2:{ unfold floats. rewrite !map_map. apply map_ext. intros a. cbn. f_equal. ring. }
  rewrite fmean_fin by (destruct l; [congruence|discriminate]). unfold rmean at 1. rewrite map_length. unfold rstd. rewrite fsqrt_fin. auto.
  apply Rmult_le_pos. apply Rsum_sq_nonneg. intros a Ha. apply in_map_iff in Ha. destruct Ha as (b & <- & _). apply pow2_ge_0.
  apply Rlt_le, Rinv_0_lt_compat. apply lt_0_INR. destruct l; [congruence|cbn; lia].
Qed.
Lemma fdiv_fin_inv : forall (a : fl R) n z, fdiv a (Fin n) = Fin z -> exists x, a = Fin x.
Proof.
  intros [x| | |] n z H; eauto; cbn in H; try discriminate; destruct (k_is0 n); try discriminate; unfold inf_sign in H; destruct (kltb k0 n); try discriminate; destruct (kltb n k0); discriminate.
Qed.
Lemma fmul_fin_inv : forall a : fl R, (exists z, fmul a a = Fin z) -> exists x, a = Fin x.
Proof. intros [x| | |] [z H]; eauto; discriminate. Qed.

(** it never fires with a non-finite entry *)
Lemma fstd_fires : forall l th, l <> [] -> fltb (fstd l) (Fin th) = true <-> exists ys, l = floats ys /\ (rstd ys < th)%R.
Proof.
  intros l th Hl. split.
  - intros H. assert (HF : exists z, fstd l = Fin z).
    { unfold fstd, fsqrt in *. destruct (fmean _) as [u| | |]; try discriminate. destruct (Rltb u 0); [discriminate|eauto]. }
    destruct HF as [z Hz]. unfold fstd in Hz. apply fsqrt_fin_inv in Hz. destruct Hz as [x Hx]. unfold fmean at 1 in Hx. apply fdiv_fin_inv in Hx. destruct Hx as [y Hy].
    assert (Hf : exists ys, l = floats ys).
    { apply fin_list. intros a Ha. destruct (fsum_fin_inv _ _ Hy (fmul (fsub a (fmean l)) (fsub a (fmean l)))) as (q & Hq). apply in_map_iff; eauto.
      destruct (fmul_fin_inv (fsub a (fmean l))) as (r & Hr); eauto. apply fsub_fin_inv in Hr. destruct Hr as (x' & _ & -> & _). eauto. }
    destruct Hf as [ys ->]. exists ys. split; auto. assert (ys <> []) by (intros ->; apply Hl; reflexivity). rewrite fstd_fin in H by auto. cbn in H. apply Rltb_true in H. auto.
  - intros (ys & -> & H). rewrite fstd_fin by (intros ->; apply Hl; reflexivity). cbn. apply Rltb_true. auto.
Qed.
Lemma fires_perm : forall l l' th, l <> [] -> Permutation l l' -> fltb (fstd l) (Fin th) = fltb (fstd l') (Fin th).
Proof.
  intros l l' th Hl HP. assert (Hl' : l' <> []). { intros ->. apply Permutation_sym, Permutation_nil in HP. auto. }
  assert (D : forall a b, a <> [] -> Permutation a b -> b <> [] -> fltb (fstd a) (Fin th) = true -> fltb (fstd b) (Fin th) = true).
  { intros a b Ha P Hb H. apply fstd_fires in H; auto. apply fstd_fires; auto. destruct H as (ys & -> & Hy). unfold floats in P.
    destruct (Permutation_map_inv _ _ (Permutation_sym P)) as (zs & -> & PZ). exists zs. split; auto. rewrite <- (rstd_perm _ _ PZ). auto. }
  destruct (fltb (fstd l) (Fin th)) eqn:E1, (fltb (fstd l') (Fin th)) eqn:E2; auto.
  - rewrite (D l l') in E2; auto.
  - rewrite (D l' l) in E1; auto. apply Permutation_sym; auto.
Qed.

(** ** the rolling window *)
Lemma lastn_length : forall A p (l : list A), p <= length l -> length (lastn p l) = p.
Proof. intros. unfold lastn. rewrite skipn_length. lia. Qed.
Lemma skipn_nth : forall A n (l : list A) i d, nth i (skipn n l) d = nth (n + i) l d.
Proof. induction n; intros l i d; cbn; auto. destruct l. destruct i; auto. apply IHn. Qed.
Lemma lastn_nth : forall A p (l : list A) i d, nth i (lastn p l) d = nth (length l - p + i) l d.
Proof. intros. apply skipn_nth. Qed.

Definition window (p : nat) (es : list (fl R)) : list (fl R) := lastn p (repeat PInf p ++ es).
Lemma window_len : forall p es, length (window p es) = p.
Proof. intros. apply lastn_length. rewrite app_length, repeat_length. lia. Qed.
Lemma window_push : forall p es e i, i < p -> nth i (window p (es ++ [e])) PInf = if S i =? p then e else nth (S i) (window p es) PInf.
Proof.
  intros p es e i Hi. unfold window. rewrite !lastn_nth. rewrite !app_length, !repeat_length. cbn [length]. rewrite app_assoc.
  destruct (Nat.eqb_spec (S i) p) as [E|E].
  - rewrite app_nth2 by (rewrite app_length, repeat_length; lia). rewrite app_length, repeat_length. replace (p + (length es + 1) - p + i - (p + length es)) with 0 by lia. auto.
  - rewrite app_nth1 by (rewrite app_length, repeat_length; lia). f_equal. lia.
Qed.

Definition holds (p n : nat) (slot : nat -> fl R) (es : list (fl R)) : Prop := forall i, i < p -> slot ((n + 1 + i) mod p) = nth i (window p es) PInf.
Lemma holds_start : forall p n, holds p n (fun _ => PInf) [].
Proof.
  intros p n i Hi. unfold window. rewrite lastn_nth. rewrite app_nil_r, repeat_length. rewrite nth_repeat. auto.
Qed.
Lemma mod_add_ne : forall a b p, 0 < b < p -> (a + b) mod p <> a mod p.
Proof.
  intros a b p Hb E. assert (Hp : p <> 0) by lia. pose proof (Nat.div_mod a p Hp). pose proof (Nat.div_mod (a + b) p Hp).
  assert (b = p * ((a + b) / p - a / p)) by nia. destruct ((a + b) / p - a / p); nia.
Qed.
Lemma holds_push : forall p n slot es e, 0 < p -> holds p n slot es ->
  holds p (S n) (fun j => if j =? (S n) mod p then e else slot j) (es ++ [e]).
Proof.
  intros p n slot es e Hp H i Hi. rewrite window_push by auto. destruct (Nat.eqb_spec (S i) p) as [E|E].
  - replace (S n + 1 + i) with (S n + 1 * p) by lia. rewrite Nat.mod_add by lia. rewrite Nat.eqb_refl. auto.
  - destruct (Nat.eqb_spec ((S n + 1 + i) mod p) (S n mod p)) as [F|F].
    + exfalso. replace (S n + 1 + i) with (S n + (1 + i)) in F by lia. apply mod_add_ne in F; auto. lia.
    + rewrite <- (H (S i)) by lia. f_equal. f_equal. lia.
Qed.
Lemma rotate_perm : forall p a, 0 < p -> Permutation (map (fun i => (a + i) mod p) (seq 0 p)) (seq 0 p).
Proof.
  intros p a Hp. apply NoDup_Permutation_bis.
  - assert (HN : forall l, NoDup l -> (forall i, In i l -> i < p) -> NoDup (map (fun i => (a + i) mod p) l)).
    { induction l as [|i l IH]; intros N L; cbn; constructor. inversion N; subst. intros HI. apply in_map_iff in HI. destruct HI as (j & E & Hj).
      assert (i < p) by (apply L; left; auto). assert (j < p) by (apply L; right; auto). assert (i <> j) by (intros ->; auto).
      destruct (Nat.lt_ge_cases i j). apply (mod_add_ne (a + i) (j - i) p). lia. replace (a + i + (j - i)) with (a + j) by lia. auto.
      apply (mod_add_ne (a + j) (i - j) p). lia. replace (a + j + (i - j)) with (a + i) by lia. auto.
      inversion N; subst. apply IH; auto. intros. apply L. right; auto. }
    apply HN. apply seq_NoDup. intros i Hi. apply in_seq in Hi. lia.
  - rewrite map_length. auto.
  - intros j Hj. apply in_map_iff in Hj. destruct Hj as (i & <- & _). apply in_seq. pose proof (Nat.mod_upper_bound (a + i) p). lia.
Qed.
Lemma holds_perm : forall p n slot es, 0 < p -> holds p n slot es -> Permutation (map slot (seq 0 p)) (window p es).
Proof.
  intros p n slot es Hp H. eapply Permutation_trans. apply Permutation_map, Permutation_sym, (rotate_perm p (n + 1)); auto.
  rewrite map_map. replace (window p es) with (map (fun i => nth i (window p es) PInf) (seq 0 p)).
  - replace (map (fun x => slot ((n + 1 + x) mod p)) (seq 0 p)) with (map (fun i => nth i (window p es) PInf) (seq 0 p)). apply Permutation_refl.
    apply map_ext_in. intros i Hi. apply in_seq in Hi. symmetry. apply H. lia.
  - apply nth_ext with (d := PInf) (d' := PInf). rewrite map_length, seq_length, window_len. auto. intros i Hi. rewrite map_length, seq_length in Hi.
    rewrite nth_map_seq by auto. auto.
Qed.
(** a finite window is made of recorded energies *)
Lemma window_finite : forall p es ys, 0 < p -> (window p es = floats ys <-> p <= length es /\ lastn p es = floats ys).
Proof.
  intros p es ys Hp. destruct (Nat.le_gt_cases p (length es)) as [L|L].
  - assert (E : window p es = lastn p es). { unfold window, lastn. rewrite app_length, repeat_length. rewrite skipn_app. rewrite skipn_all2 by (rewrite repeat_length; lia). rewrite repeat_length. cbn. f_equal. lia. }
    rewrite E. intuition.
  - split; [|lia]. intros E. exfalso. assert (HI : nth 0 (window p es) (Fin 0%R) = PInf).
    { unfold window. rewrite lastn_nth. rewrite app_length, repeat_length. rewrite app_nth1 by (rewrite repeat_length; lia).
      rewrite (nth_indep _ _ PInf) by (rewrite repeat_length; lia). apply nth_repeat. }
    rewrite E in HI. assert (Ly : length (floats ys) = p) by (rewrite <- E; apply window_len). destruct ys; cbn in *; [lia|discriminate].
Qed.

(** ** one run *)
Section Run.
  Context {V : Type}.
  Notation st := (st R V).
  Notation cfg := (cfg R V).
  Notation orc := (orc V).

  Lemma step_cons : forall (c : cfg) (o : orc) s s', wf c s -> perm_ok o s -> step c o s = Ok s' ->
    exists cp, s_cons s' = Some cp /\ length cp = length (s_active s) /\
      forall row, In row cp -> exists e x a, row = c_ccrow c e x a /\ length x = c_bsize c /\ length e = length x.
  Proof.
    intros c o s s' W P HS. unfold step in HS. destruct (pre_cons_ok c o s W P) as (s0 & sc & E1 & E2 & Ex & EM & EN).
    destruct (pre_step_char c o s W P) as (ci & pi & ind & Epre & Gc & Gp & Hsel & Hind1 & Hind2).
    rewrite E1 in Epre. injection Epre as ->. rewrite E1 in HS. cbn [bind] in HS. set (s1 := set_pidx pi (set_cidx ci (set_ind ind (set_xold (Some (s_x s)) s)))) in *.
    pose proof (incr_NoDup _ (w_act _ _ W)) as Hnd.
    assert (Hsl : forall k, k < length (s_active s) -> length (sel ci k (s_N s)) = c_bsize c).
    { intros k Hk. destruct (nth_error_lt_Some _ _ _ Hk) as [m Hm]. rewrite (proj1 (Hsel _ _ Hm)).
      apply run_sel_length; auto. apply W. eapply nth_error_In; eauto. }
    destruct (compute_consensus_char c s1) as
      (cep' & en & cp & nb & xs & Ecc & Exs & Esv & Ren & Hcep & Lcp & Hnb & Hrow & Hinact); unfold s1 in *; sstall; auto; try apply W.
    { intros. rewrite !Hsl; auto. }
    rewrite Ecc in E2. injection E2 as <-. apply bind_ok in HS. destruct HS as (s2 & HS & HP).
    destruct (cbo_step_ok _ _ _ _ _ (s_M s) (s_N s) Ecc HS) as (x' & d & fc & nf & Es2 & Lnf & Hx'). { sst. apply W. }
    assert (Ec : s_cons s2 = Some cp) by (rewrite Es2; sst; auto).
    apply post_step_frame in HP. destruct HP as (y1 & y2 & y3 & y4 & y5 & y6 & y7 & s5 & Et & ->). apply track_frame in Et.
    exists cp. split. { destruct Et as (ti & ts & h & ->). sst. auto. }
    split; auto. intros row Hr. apply In_nth_error in Hr. destruct Hr as [k Hk]. assert (Lk : k < length (s_active s)). { rewrite <- Lcp. apply nth_error_Some. rewrite Hk. discriminate. }
    destruct (nth_error_lt_Some _ _ _ Lk) as [m Hm]. assert (Hmlt : m < s_M s) by (apply W; eapply nth_error_In; eauto).
    destruct (w_x _ _ W) as [X1 X2], (w_e _ _ W) as [Y1 Y2], (w_al _ _ W) as [Z1 Z2].
    destruct (nth_error_lt_Some _ (s_x s) m) as [xr Hxr]; [congruence|]. destruct (nth_error_lt_Some _ (s_energy s) m) as [er Her]; [congruence|].
    destruct (nth_error_lt_Some _ (s_alpha s) m) as [ar Har]; [congruence|]. specialize (Z2 _ _ Har). destruct ar as [|a [|b ar]]; try discriminate.
    destruct (Hrow k m xr er a Hm Hxr Her Har) as (xb & er' & HT & _ & _ & _ & Hc). rewrite Hk in Hc. injection Hc as ->.
    exists (map (c_f c) xb), xb, a. split; [auto|]. split; [|apply map_length]. rewrite (mapM_length _ _ _ _ _ HT). apply Hsl. auto.
  Qed.

  Lemma add_at_length : forall act k l, length (add_at act k l) = length l.
  Proof. intros. unfold add_at. apply mapi_length. Qed.
  Lemma wf_nfe : forall (c : cfg) s nf fc, wf c s -> length nf = s_M s -> wf c (set_nfe nf (set_fcalls fc s)).
  Proof. intros c s nf fc W H. destruct W. constructor; sst; auto. Qed.

  Lemma constructed_start : forall (c : cfg) s, constructed c s -> s_cons s = None /\ s_it s = 0 /\ s_active s = seq 0 (s_M s).
  Proof.
    intros c s (x0 & chk & al & sg & la & dt & perm0 & names & extra & save & Hx & HN & Hb & Hp & Hs & H).
    unfold init in H. apply bind_ok in H. destruct H as (bp & Ebp & H).
    match type of H with Ok (init_history _ _ _ ?s1) = _ => set (s0 := s1) in * end.
    destruct (init_history_char names extra save s0) as (ts & h & E & _). rewrite E in H. injection H as <-. subst s0. sst. auto.
  Qed.

  Definition buf_ok (p n : nat) (b : option buffer) (es : list (fl R)) : Prop :=
    exists slot, b = Some (map (fun j => [slot j]) (seq 0 p)) /\ holds p n slot es.

  Lemma mapi_seq : forall A B (f : nat -> A -> B) (g : nat -> A) p, mapi f (map g (seq 0 p)) = map (fun j => f j (g j)) (seq 0 p).
  Proof.
    intros. apply nth_error_ext. intros k. rewrite mapi_nth, !nth_error_map. destruct (nth_error (seq 0 p) k) as [j|] eqn:E; cbn; auto.
    assert (Hk : k < p). { rewrite <- (seq_length p 0). apply nth_error_Some. rewrite E. discriminate. }
    rewrite (nth_error_nth' _ 0) in E by (rewrite seq_length; auto). rewrite seq_nth in E by auto. injection E as <-. auto.
  Qed.
  Lemma store_one : forall p slot k e, store k [0] [e] (map (fun j => [slot j]) (seq 0 p)) = map (fun j => [if j =? k then e else slot j]) (seq 0 p).
  Proof. intros. unfold store. rewrite mapi_seq. apply map_ext. intros j. destruct (j =? k); reflexivity. Qed.

  Definition wstate (c : cfg) (p n : nat) (s : st) (b : option buffer) (es : list (fl R)) : Prop :=
    wf c s /\ s_M s = 1 /\ s_active s = [0] /\ s_it s = n /\ length es = n - 1 /\
    ((n = 0 /\ s_cons s = None /\ b = None /\ es = []) \/ (n <> 0 /\ (exists v, s_cons s = Some [[v]]) /\ buf_ok p (n - 1) b es)).

  Lemma call_state : forall (c : cfg) p th n s b es, 0 < p -> wstate c p n s b es ->
    exists r s1 b1, stag_call p th c s b = Ok ([r], s1, b1) /\ (wf c s1 /\ s_M s1 = 1 /\ s_active s1 = [0] /\ s_it s1 = n) /\
      length (es ++ consensus_energy c s) = n /\ buf_ok p n b1 (es ++ consensus_energy c s) /\
      (r = true <-> p <= n /\ exists ys, lastn p (es ++ consensus_energy c s) = floats ys /\ (rstd ys < th)%R).
  Proof.
    intros c p th n s b es Hp (W & HM & HA & Hit & Hlen & [(-> & Hc & -> & ->)|(Hn & (v & Hc) & HB)]).
    - unfold stag_call. rewrite Hc, HM. cbn [repeat]. do 3 eexists. split; [reflexivity|]. split; [auto|]. unfold consensus_energy. rewrite Hc.
      split; [auto|]. split. exists (fun _ => PInf). split. f_equal. clear. induction p; cbn; auto. rewrite IHp. f_equal. rewrite <- seq_shift, map_map. auto.
      apply holds_start. split. discriminate. lia.
    - unfold stag_call. rewrite Hc, HM, HA. cbn [takeM mapM take1 nth_error bind]. destruct HB as (slot & -> & HH). set (e := c_f c v).
      destruct p as [|p']; [lia|]. set (p := S p') in *. cbn [map column bind]. fold e. rewrite store_one. do 3 eexists. split; [reflexivity|].
      assert (EE : consensus_energy c s = [e]) by (unfold consensus_energy; rewrite Hc; reflexivity). rewrite EE.
      split. { sst. split; [|auto]. apply wf_nfe; auto. rewrite add_at_length. apply W. }
      assert (LL : length (es ++ [e]) = n) by (rewrite app_length; cbn; lia). split; [auto|].
      pose proof (holds_push p (n - 1) slot es e Hp HH) as HP. replace (S (n - 1)) with n in HP by lia.
      split. { eexists. split; [|exact HP]. rewrite Hit. auto. }
      rewrite map_map. cbn [nth]. rewrite Hit. pose proof (holds_perm p n _ _ Hp HP) as PP. cbv beta in PP.
      assert (NE : map (fun x => if x =? n mod p then e else slot x) (seq 0 p) <> []) by (unfold p; discriminate).
      change (match p with 0 => 0 | S y => p' - snd (Nat.divmod n p' 0 p') end) with (n mod p) || idtac.
      rewrite (fires_perm _ _ th NE PP). rewrite fstd_fires.
      + rewrite <- LL at 1. split.
        * intros (ys & E & H). apply window_finite in E; auto. destruct E. split; eauto.
        * intros (L & ys & E & H). exists ys. split; auto. apply window_finite; auto.
      + intros E. apply (f_equal (@length _)) in E. rewrite window_len in E. cbn in E. lia.
  Qed.

  Lemma watched_state : forall (c : cfg) p th n s b es, 0 < p -> one_consensus_point c -> watched c p th n s b es -> wstate c p n s b es.
  Proof.
    intros c p th n s b es Hp H1 H. induction H as [s HC HM|n s b es s1 b1 o s2 s3 H IH HS HP HT HPC].
    - destruct (constructed_start c s HC) as (A & B & C). split; [apply constructed_wf; auto|]. rewrite C, HM. repeat split; auto. 
    - destruct (call_state c p th n s b es Hp IH) as (r & s1' & b1' & E & (W & HM & HA & Hit) & LL & BB & _). rewrite E in HS. injection HS as -> -> ->.
      pose proof (step_ok_char c o s1 s2 W (perms_valid_ok _ _ HP) HT) as (W2 & (X1 & _ & _ & _ & _ & _ & _ & X8 & X9 & _) & _).
      destruct (step_cons c o s1 s2 W (perms_valid_ok _ _ HP) HT) as (cp & Hcp & Lcp & Rcp). rewrite HA in Lcp.
      destruct cp as [|row [|row2 cp]]; try discriminate. destruct (Rcp row (or_introl eq_refl)) as (e1 & x1 & a1 & Er & _).
      pose proof (H1 e1 x1 a1) as L1. rewrite <- Er in L1. destruct row as [|v [|v2 row]]; try discriminate.
      pose proof (params_wf c s2 s3 HPC W2) as W3. destruct HPC as (al & sg & la & d & _ & ->).
      split; auto. sst. rewrite X1, X8, X9. repeat split; auto; try lia. right. split; [lia|]. split; [eauto|]. replace (S n - 1) with n by lia. auto.
  Qed.

  Theorem stagnation_fires : forall (c : cfg) p th n s b es, 0 < p -> one_consensus_point c -> watched c p th n s b es ->
    exists r s1 b1, stag_call p th c s b = Ok ([r], s1, b1) /\
      length (es ++ consensus_energy c s) = n /\
      (r = true <-> p <= n /\ exists ys, lastn p (es ++ consensus_energy c s) = floats ys /\ (rstd ys < th)%R).
  Proof.
    intros c p th n s b es Hp H1 H. destruct (call_state c p th n s b es Hp (watched_state _ _ _ _ _ _ _ Hp H1 H)) as (r & s1 & b1 & E & _ & L & _ & F). eauto 10.
  Qed.

  (** ** several runs *)
  Theorem stagnation_raises : forall (c : cfg) s log o s' p th b, exec c s log -> perms_valid o s -> step c o s = Ok s' -> one_consensus_point c ->
    2 <= length (s_active s) -> 0 < p -> exists e, stag_call p th c s' b = Err e /\ (s_active s = seq 0 (s_M s) -> e = ShapeError).
  Proof.
    intros c s log o s' p th b HE HP HT H1 HA Hp. pose proof (exec_wf _ _ _ HE) as W.
    pose proof (step_ok_char c o s s' W (perms_valid_ok _ _ HP) HT) as (W2 & (X1 & _ & _ & _ & _ & _ & _ & X8 & X9 & _) & _).
    destruct (step_cons c o s s' W (perms_valid_ok _ _ HP) HT) as (cp & Hcp & Lcp & Rcp).
    unfold stag_call. rewrite Hcp, X9. destruct (takeM cp (s_active s)) as [pts|e] eqn:ET.
    - cbn [bind]. exists ShapeError. split; auto. destruct p as [|p]; [lia|]. assert (L : length pts = length (s_active s)) by (eapply mapM_length; eauto).
      destruct pts as [|r1 [|r2 pts]]; cbn in L; try lia. destruct r1 as [|a [|b' r1]]; reflexivity.
    - exists e. cbn [bind]. split; auto. intros EA. exfalso. rewrite EA in ET, Lcp. rewrite seq_length in Lcp.
      assert (G : forall l, (forall m, In m l -> m < length cp) -> exists y, takeM cp l = Ok y).
      { induction l as [|m l IH]; intros Hl. exists []. auto. destruct IH as [y Hy]. intros; apply Hl; right; auto.
        destruct (nth_error_lt_Some _ cp m) as [v Hv]. apply Hl; left; auto. exists (v :: y). unfold takeM in *. cbn. unfold take1 at 1. rewrite Hv. cbn. rewrite Hy. auto. }
      destruct (G (seq 0 (s_M s))) as [y Hy]. intros m Hm. apply in_seq in Hm. lia. congruence.
  Qed.

  (** a consensus point per particle *)
  Theorem stagnation_raises_polar : forall (c : cfg) s log o s' p th b, exec c s log -> perms_valid o s -> step c o s = Ok s' -> consensus_per_particle c ->
    2 <= c_bsize c -> s_active s <> [] -> 0 < p -> exists e, stag_call p th c s' b = Err e.
  Proof.
    intros c s log o s' p th b HE HP HT H1 HN HA Hp. pose proof (exec_wf _ _ _ HE) as W.
    pose proof (step_ok_char c o s s' W (perms_valid_ok _ _ HP) HT) as (W2 & (X1 & _ & _ & _ & _ & _ & _ & X8 & X9 & _) & _).
    destruct (step_cons c o s s' W (perms_valid_ok _ _ HP) HT) as (cp & Hcp & Lcp & Rcp).
    unfold stag_call. rewrite Hcp, X9. destruct (takeM cp (s_active s)) as [pts|e] eqn:ET; [|exists e; reflexivity].
    cbn [bind]. exists ShapeError. destruct p as [|p]; [lia|]. assert (L : length pts = length (s_active s)) by (eapply mapM_length; eauto).
    destruct (s_active s) as [|m act] eqn:EA; [congruence|]. destruct pts as [|r1 pts]; [discriminate|].
    assert (In r1 cp). { unfold takeM in ET. cbn [mapM] in ET. apply bind_ok in ET. destruct ET as (v & E1 & ET). apply bind_ok in ET. destruct ET as (vs & _ & ET). injection ET as -> _.
      unfold take1 in E1. destruct (nth_error cp m) as [w|] eqn:Ew; [|discriminate]. injection E1 as ->. eapply nth_error_In; eauto. }
    destruct (Rcp r1) as (e1 & x1 & a1 & -> & L1 & L2); auto. pose proof (H1 e1 x1 a1) as L3.
    destruct (c_ccrow c e1 x1 a1) as [|v1 [|v2 w]]; cbn in L3; try lia. destruct pts; reflexivity.
  Qed.

  (** the first check passes, so that optimize always fails at its second one *)
  Theorem stagnation_first_check : forall (c : cfg) s p th, constructed c s -> exists b, stag_call p th c s None = Ok (repeat false (s_M s), s, Some b).
  Proof. intros c s p th H. destruct (constructed_start c s H) as (A & _ & _). unfold stag_call. rewrite A. eauto. Qed.

  (** ** the memory survives a reset *)
  Lemma one_call : forall (c : cfg) p th s v slot, 0 < p -> s_cons s = Some [[v]] -> s_M s = 1 -> s_active s = [0] ->
    stag_call p th c s (Some (map (fun j => [slot j]) (seq 0 p))) =
    Ok ([fltb (fstd (map (fun j => if j =? s_it s mod p then c_f c v else slot j) (seq 0 p))) (Fin th)],
        set_nfe (add_at [0] 1 (s_nfe s)) (set_fcalls (s_fcalls s + npoints [[v]]) s),
        Some (map (fun j => [if j =? s_it s mod p then c_f c v else slot j]) (seq 0 p))).
  Proof.
    intros c p th s v slot Hp Hc HM HA. unfold stag_call. rewrite Hc, HM, HA. cbn [takeM mapM take1 nth_error bind].
    remember (s_it s mod p) as k. clear Heqk. destruct p as [|p']; [lia|]. set (p := S p') in *. cbn [map column bind]. rewrite store_one. clearbody p. cbn [seq map]. rewrite map_map. auto.
  Qed.
  Theorem stagnation_stale : forall (c : cfg) p th n s b es s1 b1, 0 < p -> one_consensus_point c -> watched c p th n s b es ->
    stag_call p th c s b = Ok ([true], s1, b1) -> n mod p = 0 -> exists s2 b2, stag_call p th c (reset s1) b1 = Ok ([true], s2, b2).
  Proof.
    intros c p th n s b es s1 b1 Hp H1 H E Hm. pose proof (watched_state _ _ _ _ _ _ _ Hp H1 H) as WS.
    destruct (call_state c p th n s b es Hp WS) as (r & s1' & b1' & E' & _ & LL & BB & FF). rewrite E in E'. injection E' as <- <- <-.
    destruct (proj1 FF eq_refl) as (Ln & _). destruct WS as (W & HM & HA & Hit & Hlen & [(-> & _)|(Hn & (v & Hc) & HB)]); [lia|].
    destruct HB as (slot & -> & HH). rewrite (one_call c p th s v slot Hp Hc HM HA) in E. rewrite Hit, Hm in E. injection E as E1 <- <-.
    destruct (reset_char (set_nfe (add_at [0] 1 (s_nfe s)) (set_fcalls (s_fcalls s + npoints [[v]]) s))) as (ts & h & Er & _). rewrite Er.
    rewrite (one_call c p th _ v (fun j => if j =? 0 then c_f c v else slot j)); auto. do 2 eexists. f_equal. f_equal. f_equal. f_equal. etransitivity; [|exact E1]. f_equal. f_equal.
    apply map_ext. intros j. sst. rewrite Nat.mod_0_l by lia. destruct (j =? 0); auto.
  Qed.
End Run.
