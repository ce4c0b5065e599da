(** * Facts about the regularisation scheduler *)
From Coq Require Import List Arith Bool Reals Lra Lia Psatz.
From Verif Require Import Scalar ScalarFacts Np NpFacts PdynFacts BcFacts PdynOk RFacts RVec RVecFacts Consensus ConsSpec ConsFacts PolarFacts RegSched.
Import ListNotations.
Open Scope R_scope.

Section SchedFacts.
  Variables (theta_max ft fl' lmax : R).
  Notation upd := (sched_update theta_max ft fl' lmax).
  Notation upds := (sched_updates theta_max ft fl' lmax).

  (** [below] for a positive theta: the documented comparison; a NaN mean counts as above *)
  Lemma below_spec : forall m theta, 0 < theta ->
    below m theta = true <-> (m = NInf \/ exists x, m = Fin x /\ x <= / sqrt theta).
  Proof.
    intros m theta H. assert (S : 0 < sqrt theta) by (apply sqrt_lt_R0; auto).
    unfold below, rsqrt. rewrite (proj2 (Rltb_false theta 0)) by lra. unfold fdiv. rewrite is0_false by lra.
    cbn [kdiv KOps_R]. unfold Rdiv. rewrite Rmult_1_l. destruct m as [x| | |]; cbn.
    - split; intros Hx.
      + right. exists x. split; auto. destruct (Rltb (/ sqrt theta) x) eqn:E; [discriminate |]. apply Rltb_false in E. auto.
      + destruct Hx as [Hx | (y & E & Hy)]; [discriminate |]. injection E as ->. rewrite (proj2 (Rltb_false _ _) Hy). auto.
    - split; [discriminate |]. intros [Hx | (y & E & Hy)]; discriminate.
    - split; auto.
    - split; [discriminate |]. intros [Hx | (y & E & Hy)]; discriminate.
  Qed.

  Lemma lamda_bounds : forall m theta l, 0 <= lmax -> 0 <= lamda_step fl' lmax m theta l <= lmax.
  Proof.
    intros. unfold lamda_step. split.
    - apply Rmin_glb; auto. apply Rmax_r.
    - apply Rmin_r.
  Qed.

  Lemma lamda_grows : forall m theta l, 0 <= l <= lmax -> 0 <= fl' -> 0 < theta ->
    (below m theta = true -> lamda_step fl' lmax m theta l = l) /\
    (below m theta = false -> lamda_step fl' lmax m theta l = Rmin (l * fl') lmax).
  Proof.
    intros m theta l Hl Hf Ht. unfold lamda_step. split; intros ->.
    - rewrite Rmax_left by lra. apply Rmin_left. lra.
    - rewrite Rmax_left; auto. nra.
  Qed.

  (** all runs after one update *)
  Lemma upd_spec : forall ms theta lamda theta' lamda', 0 <= lmax -> upd ms (theta, lamda) = Ok (theta', lamda') ->
    length theta' = length theta /\ length lamda' = length lamda /\
    (forall k m t l, nth_error ms k = Some m -> nth_error theta k = Some t -> nth_error lamda k = Some l ->
       nth_error theta' k = Some (theta_step theta_max ft m t) /\ nth_error lamda' k = Some (lamda_step fl' lmax m t l)) /\
    Forall (fun l => 0 <= l <= lmax) lamda'.
  Proof.
    intros ms theta lamda theta' lamda' HL H. unfold sched_update in H.
    destruct (Nat.eqb_spec (length ms) (length theta)) as [E1|]; [| discriminate].
    destruct (Nat.eqb_spec (length ms) (length lamda)) as [E2|]; [| discriminate]. cbn in H. injection H as <- <-.
    split; [rewrite map2_length; lia |]. split; [rewrite map2_length, combine_length; lia |].
    split.
    - intros k m t l Em Et El. split.
      + rewrite map2_nth, Em, Et. auto.
      + rewrite map2_nth, nth_error_combine, Em, Et, El. auto.
    - apply Forall_forall. intros l Hin. apply In_nth_error in Hin. destruct Hin as (k & Hk).
      rewrite map2_nth in Hk. destruct (nth_error (combine ms theta) k); [| discriminate].
      destruct (nth_error lamda k); [| discriminate]. injection Hk as <-. apply lamda_bounds. auto.
  Qed.

  (** every history of means: the bound on lamda holds after each update *)
  Lemma upds_bounds : forall mss p theta' lamda', 0 <= lmax -> mss <> [] -> upds mss p = Ok (theta', lamda') ->
    Forall (fun l => 0 <= l <= lmax) lamda'.
  Proof.
    induction mss as [|ms mss IH]; intros p theta' lamda' HL NE H; [congruence |]. cbn in H.
    destruct (upd ms p) as [q|] eqn:E; [| discriminate]. cbn in H. destruct mss as [|ms' mss].
    - cbn in H. injection H as ->. destruct p as [th la]. eapply upd_spec; eauto.
    - apply (IH q theta' lamda'); auto. discriminate.
  Qed.

  (** a run whose mean stays non-positive: theta grows geometrically *)
  Lemma theta_geometric : forall n mss theta lamda theta' lamda' k t, 1 <= ft ->
    length mss = n -> (forall ms, In ms mss -> exists x, nth_error ms k = Some (Fin x) /\ x <= 0) ->
    nth_error theta k = Some t -> 0 < t -> (k < length lamda)%nat -> 0 <= lmax ->
    upds mss (theta, lamda) = Ok (theta', lamda') -> nth_error theta' k = Some (t * ft ^ n).
  Proof.
    induction n as [|n IH]; intros mss theta lamda theta' lamda' k t Hf Hn Hm Ht Pt Lk HL H.
    - destruct mss; [| discriminate]. cbn in H. injection H as <- <-. rewrite Ht. f_equal. cbn. lra.
    - destruct mss as [|ms mss]; [discriminate |]. cbn [sched_updates] in H.
      destruct (upd ms (theta, lamda)) as [[th1 la1]|] eqn:E; [| discriminate]. cbn [bind] in H.
      destruct (nth_error_lt_Some _ lamda k Lk) as (l & El).
      destruct (Hm ms (or_introl eq_refl)) as (x & Ex & Hx).
      destruct (upd_spec ms theta lamda th1 la1 HL E) as (L1 & L2 & Hk & _).
      destruct (Hk k _ t l Ex Ht El) as (Et & _).
      assert (Eb : below (Fin x) t = true).
      { apply below_spec; auto. right. exists x. split; auto.
        assert (0 < / sqrt t) by (apply Rinv_0_lt_compat, sqrt_lt_R0; auto). lra. }
      unfold theta_step in Et. rewrite Eb in Et.
      rewrite (IH mss th1 la1 theta' lamda' k (t * ft)); auto.
      + f_equal. cbn. ring.
      + intros ms' Hin. apply Hm. right. auto.
      + nra.
      + congruence.
  Qed.

  (** such histories exist and theta passes every bound *)
  Lemma theta_unbounded : forall t l B M, 1 < ft -> 0 < t -> 0 <= lmax ->
    exists mss theta' lamda', (1 <= length mss)%nat /\ Forall (fun ms => ms = repeat (Fin 0) (S M)) mss /\
      upds mss (repeat t (S M), repeat l (S M)) = Ok (theta', lamda') /\ Forall (fun t' => B < t') theta'.
  Proof.
    intros t l B M Hf Ht HL.
    destruct (Pow_x_infinity ft) with (b := Rabs (B / t) + 1) as (n & Hn). { rewrite Rabs_right; lra. }
    specialize (Hn (S n) ltac:(lia)).
    set (mss := repeat (repeat (Fin 0) (S M)) (S n)).
    assert (Ok' : forall mss theta lamda, (forall ms : list (fl R), In ms mss -> length ms = S M) -> length theta = S M -> length lamda = S M ->
      exists theta' lamda', upds mss (theta, lamda) = Ok (theta', lamda') /\ length theta' = S M /\ length lamda' = S M).
    { clear - HL. induction mss as [|ms mss IH]; intros theta lamda Hms E1 E2.
      - exists theta, lamda. auto.
      - cbn [sched_updates]. destruct (upd ms (theta, lamda)) as [[th la]|] eqn:E.
        + cbn [bind]. destruct (upd_spec ms theta lamda th la HL E) as (L1 & L2 & _). apply IH; [| lia | lia].
          intros. apply Hms. right. auto.
        + exfalso. unfold sched_update in E. rewrite (Hms ms (or_introl eq_refl)), E1, E2, Nat.eqb_refl in E. discriminate. }
    destruct (Ok' mss (repeat t (S M)) (repeat l (S M))) as (theta' & lamda' & E & L1 & L2).
    { intros ms Hin. apply repeat_spec in Hin. subst. apply repeat_length. }
    { apply repeat_length. } { apply repeat_length. }
    exists mss, theta', lamda'. split; [cbn; lia |]. split.
    { apply Forall_forall. intros ms Hin. apply repeat_spec in Hin. auto. }
    split; auto. apply Forall_forall. intros t' Hin. apply In_nth_error in Hin. destruct Hin as (k & Hk).
    assert (Lk : (k < S M)%nat) by (apply nth_error_lt in Hk; lia).
    assert (Hk' : nth_error theta' k = Some (t * ft ^ S n)).
    { eapply theta_geometric with (mss := mss) (theta := repeat t (S M)) (lamda := repeat l (S M)); eauto.
      - lra.
      - apply repeat_length.
      - intros ms Hin. apply repeat_spec in Hin. subst ms. exists 0. split; [| lra].
        rewrite nth_error_repeat. destruct (Nat.ltb_spec k (S M)); [auto | lia].
      - rewrite nth_error_repeat. destruct (Nat.ltb_spec k (S M)); [auto | lia].
      - rewrite repeat_length. auto. }
    rewrite Hk in Hk'. injection Hk' as ->.
    assert (P : 0 < ft ^ S n) by (apply pow_lt; lra). rewrite Rabs_right in Hn by lra.
    pose proof (Rle_abs (B / t)). assert (Hd : B / t * t = B) by (field; lra).
    assert (B / t < ft ^ S n) by lra. rewrite <- Hd. rewrite (Rmult_comm t). apply Rmult_lt_compat_r; auto.
  Qed.
End SchedFacts.

(** ** the means *)

Lemma fdiv_fin : forall a b : R, b <> 0 -> fdiv (Fin a) (Fin b) = Fin (a / b).
Proof. intros. unfold fdiv. rewrite is0_false by auto. reflexivity. Qed.

Lemma simple_mean_spec : forall r : list R, r <> [] -> simple_mean (map Fin r) = Fin (Rsum r / INR (length r)).
Proof.
  intros r H. unfold simple_mean. rewrite fsum_fin, map_length. apply fdiv_fin. apply not_0_INR. destruct r; [congruence | discriminate].
Qed.

Definition gibbs_mean (a : R) (e r : list R) : R :=
  Rsum (map (fun p => exp (- a * fst p) * snd p) (combine e r)) / Rsum (map (fun v => exp (- a * v)) e).

Lemma exp_sum_pos : forall a (e : list R), e <> [] -> 0 < Rsum (map (fun v => exp (- a * v)) e).
Proof.
  intros a e H. destruct e as [|v e]; [congruence |]. apply Rsum_map_pos with v; [| left; auto | apply exp_pos].
  intros. left. apply exp_pos.
Qed.

Lemma weighted_mean_spec : forall a e r, e <> [] -> length r = length e ->
  weighted_mean (Fin a) (map Fin e) (map Fin r) = Fin (gibbs_mean a e r).
Proof.
  intros a e r NE L. unfold weighted_mean, gibbs_mean. cbv zeta.
  replace (map (fun v => fexp (fmul (fopp (Fin a)) v)) (map Fin e)) with (map Fin (map (fun v => exp (- a * v)) e)).
  2:{ rewrite !map_map. apply map_ext. intros v. reflexivity. }
  rewrite fsum_fin.
  replace (map2 fmul (map Fin (map (fun v => exp (- a * v)) e)) (map Fin r))
    with (map Fin (map (fun p => exp (- a * fst p) * snd p) (combine e r))).
  2:{ clear NE L. revert r. induction e as [|v e IH]; intros [|q r]; cbn; auto. f_equal. apply IH. }
  rewrite fsum_fin. apply fdiv_fin. apply Rgt_not_eq. apply exp_sum_pos. auto.
Qed.

(** the weighted mean lies between the smallest and the largest value *)
Lemma gibbs_mean_between : forall a e r lo hi, e <> [] -> length r = length e ->
  (forall v, In v r -> lo <= v <= hi) -> lo <= gibbs_mean a e r <= hi.
Proof.
  intros a e r lo hi NE L H. unfold gibbs_mean.
  pose proof (exp_sum_pos a e NE) as P. set (S := Rsum (map (fun v => exp (- a * v)) e)) in *.
  assert (E : S = Rsum (map (fun p : R * R => exp (- a * fst p)) (combine e r))).
  { unfold S. clear - L. revert r L. induction e as [|v e IH]; intros [|q r] L; try discriminate; auto.
    cbn [combine map Rsum fold_right fst]. unfold Rsum in *. cbn in L. f_equal. apply IH. lia. }
  assert (A1 : lo * S <= Rsum (map (fun p => exp (- a * fst p) * snd p) (combine e r))).
  { rewrite E, <- Rsum_map_scal. apply Rsum_map_le. intros [u v] Hin. apply in_combine_r in Hin. specialize (H v Hin).
    pose proof (exp_pos (- a * u)). cbn [fst snd]. nra. }
  assert (A2 : Rsum (map (fun p => exp (- a * fst p) * snd p) (combine e r)) <= hi * S).
  { rewrite E, <- Rsum_map_scal. apply Rsum_map_le. intros [u v] Hin. apply in_combine_r in Hin. specialize (H v Hin).
    pose proof (exp_pos (- a * u)). cbn [fst snd]. nra. }
  split.
  - apply Rmult_le_reg_r with S; auto. unfold Rdiv. rewrite Rmult_assoc, Rinv_l by lra. lra.
  - apply Rmult_le_reg_r with S; auto. unfold Rdiv. rewrite Rmult_assoc, Rinv_l by lra. lra.
Qed.

(** ** the regularised objective *)
Section Obj.
  Context {K V : Type} {O : KOps K}.
  Variables (f reg : V -> fl K) (pow : fl K -> fl K).

  Lemma broadcast_rect : forall M (s : fl K), rect M 1 (repeat [s] M).
  Proof.
    intros. split; [apply repeat_length |]. intros k row E. rewrite nth_error_repeat in E.
    destruct (k <? M)%nat; [injection E as <- | discriminate]. auto.
  Qed.

  (** as long as the number of runs is that of the first call: pointwise *)
  Lemma reg_call_pointwise : forall M N (x : arr V) s l, rect M N x -> (1 <= N)%nat ->
    (l = None \/ (exists r, l = Some r /\ rect M 1 r)) ->
    exists e l', reg_call f reg pow x (mkregobj s l) = Ok (mkregobj s (Some l'), e) /\ rect M 1 l' /\
      (forall r, l = Some r -> l' = r) /\ (l = None -> l' = repeat [s] M) /\
      rect M N e /\
      forall m n row v la, nth_error x m = Some row -> nth_error row n = Some v -> nth_error l' m = Some [la] ->
        exists erow, nth_error e m = Some erow /\ nth_error erow n = Some (fadd (f v) (fmul la (pow (reg v)))).
  Proof.
    intros M N x s l Rx HN Hl. unfold reg_call. cbn [o_scalar].
    set (l' := broadcast_lamda (length x) (mkregobj s l)).
    assert (Rl : rect M 1 l').
    { unfold l', broadcast_lamda. cbn. destruct Hl as [-> | (r & -> & Hr)]; auto. rewrite (proj1 Rx). apply broadcast_rect. }
    assert (E1 : bc2 fmul l' (map (map (fun v => pow (reg v))) x) =
                 Ok (map2 (fun lr row => map (fun v => fmul (hd NaN lr) (pow (reg v))) row) l' x)).
    { unfold bc2. unfold bpairs at 1. rewrite map_length, (proj1 Rl), (proj1 Rx), Nat.eqb_refl. cbn [bind].
      destruct Rl as [Ll Hl']. destruct Rx as [Lx Hx']. clear Hl. clearbody l'. clear s l. revert x M Ll Lx Hx' Hl'.
      induction l' as [|lr l' IH]; intros x M Ll Lx Hx' Hl'; destruct x as [|row x]; cbn in Ll, Lx; try (exfalso; lia); auto.
      cbn [map combine mapM map2]. cbn [fst snd].
      assert (Er : length lr = 1%nat) by (apply (Hl' 0%nat); auto).
      destruct lr as [|la [|]]; try discriminate. cbn [hd].
      assert (Ec : bpairs [la] (map (fun v => pow (reg v)) row) = Ok (map (fun b => (la, b)) (map (fun v => pow (reg v)) row))).
      { unfold bpairs. destruct (Nat.eqb_spec (length [la]) (length (map (fun v => pow (reg v)) row))) as [E|E]; auto.
        rewrite map_length in E. destruct row as [|v [|]]; try discriminate. auto. }
      rewrite Ec. cbn [bind]. rewrite (IH x (length l')); auto.
      - cbn [bind]. f_equal. f_equal. rewrite !map_map. apply map_ext. auto.
      - cbn in *; lia.
      - intros k r E. apply (Hx' (S k)). auto.
      - intros k r E. apply (Hl' (S k)). auto. }
    rewrite E1. cbn [bind].
    assert (R1 : rect M N (map2 (fun lr row => map (fun v => fmul (hd NaN lr) (pow (reg v))) row) l' x)).
    { split; [rewrite map2_length, (proj1 Rl), (proj1 Rx); lia |]. intros k row E. rewrite map2_nth in E.
      destruct (nth_error l' k); [| discriminate]. destruct (nth_error x k) eqn:Ex; [| discriminate]. injection E as <-.
      rewrite map_length. apply (proj2 Rx k). auto. }
    pose proof (rect_map _ _ f M N x Rx) as R2.
    destruct (bc2_compat _ _ _ fadd (map (map f) x) _ M N M N R2 R1) as (e & E2 & R3).
    { left. auto. } { left. auto. }
    rewrite E2. cbn [bind]. exists e, l'. split; auto. split; auto.
    split. { intros r ->. reflexivity. } split. { intros ->. unfold l', broadcast_lamda. cbn. rewrite (proj1 Rx). auto. }
    assert (Eb : forall a : nat, BcFacts.bdim a a = a). { intros a. unfold BcFacts.bdim. destruct (Nat.eqb_spec a 1); auto. }
    rewrite !Eb in R3. split; auto.
    intros m n row v la Em En El.
    assert (Er2 : nth_error (map (map f) x) m = Some (map f row)) by (rewrite nth_error_map, Em; auto).
    assert (Er1 : nth_error (map2 (fun lr row => map (fun v => fmul (hd NaN lr) (pow (reg v))) row) l' x) m =
                  Some (map (fun v => fmul la (pow (reg v))) row)).
    { rewrite map2_nth, El, Em. auto. }
    unfold bc2 in E2. unfold bpairs at 1 in E2. rewrite (proj1 R2), (proj1 R1), Nat.eqb_refl in E2. cbn [bind] in E2.
    destruct (mapM_nth _ _ _ _ _ _ _ E2 ltac:(rewrite nth_error_combine, Er2, Er1; reflexivity)) as (erow & H1 & H2).
    exists erow. split; [auto |]. cbn [fst snd] in H1. unfold bpairs in H1. rewrite !map_length, Nat.eqb_refl in H1. cbn [bind] in H1.
    injection H1 as <-. rewrite nth_error_map, nth_error_combine, !nth_error_map, En. reflexivity.
  Qed.

  (** fewer runs than in the first call: a shape error, or, for a single one, as many rows as in the first call *)
  Lemma reg_call_fewer : forall M A N (x : arr V) s r, rect M 1 r -> rect A N x -> (1 <= N)%nat ->
    ((1 < A < M)%nat -> reg_call f reg pow x (mkregobj s (Some r)) = Err ShapeError) /\
    (A = 1%nat -> (2 <= M)%nat -> exists e, reg_call f reg pow x (mkregobj s (Some r)) = Ok (mkregobj s (Some r), e) /\ rect M N e).
  Proof.
    intros M A N x s r Rr Rx HN. unfold reg_call, broadcast_lamda. cbn [o_scalar o_lamda].
    pose proof (rect_map _ _ (fun v => pow (reg v)) A N x Rx) as Rp. split.
    - intros HA. rewrite bc2_incompat_rows; auto. rewrite (proj1 Rr), (proj1 Rp). unfold compat. lia.
    - intros -> HM.
      destruct (bc2_compat _ _ _ fmul r _ M 1 1 N Rr Rp) as (z & E & Rz). { right. right. auto. } { right. left. auto. }
      rewrite E. cbn [bind]. pose proof (rect_map _ _ f 1 N x Rx) as Rf.
      assert (B1 : BcFacts.bdim M 1 = M). { unfold BcFacts.bdim. destruct (Nat.eqb_spec M 1); lia. }
      assert (B2 : BcFacts.bdim 1 N = N) by reflexivity. rewrite B1, B2 in Rz.
      destruct (bc2_compat _ _ _ fadd (map (map f) x) z 1 N M N Rf Rz) as (e & E' & Re). { right. left. auto. } { left. auto. }
      rewrite E'. cbn [bind]. exists e. split; auto.
      assert (B3 : BcFacts.bdim 1 M = M) by reflexivity. assert (B4 : BcFacts.bdim N N = N). { unfold BcFacts.bdim. destruct (Nat.eqb_spec N 1); lia. }
      rewrite B3, B4 in Re. auto.
  Qed.
End Obj.

Lemma upd_full : forall theta_max ft fl' lmax (ms : list (fl R)) theta lamda theta' lamda', 0 <= lmax ->
  sched_update theta_max ft fl' lmax ms (theta, lamda) = Ok (theta', lamda') ->
  length theta' = length theta /\ length lamda' = length lamda /\
  Forall (fun l => 0 <= l <= lmax) lamda' /\
  forall k m t l, nth_error ms k = Some m -> nth_error theta k = Some t -> nth_error lamda k = Some l ->
    0 < t -> 0 <= l <= lmax -> 0 <= fl' ->
    exists t' l', nth_error theta' k = Some t' /\ nth_error lamda' k = Some l' /\
      ((m = NInf \/ exists x, m = Fin x /\ x <= / sqrt t) -> l' = l /\ t' = t * ft) /\
      (~ (m = NInf \/ exists x, m = Fin x /\ x <= / sqrt t) -> l' = Rmin (l * fl') lmax /\ t' = Rmin (t / ft) theta_max).
Proof.
  intros theta_max ft fl' lmax ms theta lamda theta' lamda' Hl H.
  destruct (upd_spec _ _ _ _ ms theta lamda theta' lamda' Hl H) as (A & B & C & D).
  split; auto. split; auto. split; auto. intros k m t l E1 E2 E3 Ht Hlam Hf. destruct (C k m t l E1 E2 E3) as (F1 & F2).
  eexists _, _. split; [exact F1 |]. split; [exact F2 |]. destruct (lamda_grows fl' lmax m t l Hlam Hf Ht) as (G1 & G2).
  split; intros Hm.
  - apply below_spec in Hm; auto. split; auto. unfold theta_step. rewrite Hm. auto.
  - assert (Hb : below m t = false). { destruct (below m t) eqn:Eb; auto. exfalso. apply Hm. apply below_spec; auto. }
    split; auto. unfold theta_step. rewrite Hb. auto.
Qed.

Lemma means_spec : forall a e r lo hi, e <> [] -> length r = length e -> (forall v, In v r -> lo <= v <= hi) ->
  simple_mean (map Fin r) = Fin (Rsum r / INR (length r)) /\
  exists w, weighted_mean (Fin a) (map Fin e) (map Fin r) = Fin w /\
    w * Rsum (map (fun v => exp (- a * v)) e) = Rsum (map (fun p => exp (- a * fst p) * snd p) (combine e r)) /\ lo <= w <= hi.
Proof.
  intros a e r lo hi Hne Hlen Hb. split; [apply simple_mean_spec; intros ->; destruct e; [congruence | discriminate] |].
  exists (gibbs_mean a e r). split; [apply weighted_mean_spec; auto |]. split; [| apply gibbs_mean_between; auto].
  unfold gibbs_mean. field. apply Rgt_not_eq. destruct e as [|x e]; [congruence |]. cbn [map Rsum fold_right].
  apply Rplus_lt_le_0_compat; [apply exp_pos |]. apply Rsum_nonneg. intros y Hy. apply in_map_iff in Hy.
  destruct Hy as (z & <- & _). left. apply exp_pos.
Qed.
