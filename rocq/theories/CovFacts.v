(** * Proofs on covariance noise: which shapes work, and what is computed *)
From Coq Require Import List Arith Bool Reals Lia Lra.
From Verif Require Import Scalar Np NpFacts RVec RVecFacts Consensus ConsSpec ConsFacts Nd CovNoise Polar PolarSpec PolarFacts.
Import ListNotations.
Open Scope nat_scope.

Lemma bdim_same : forall a, bdim a a = Some a.
Proof. intros; unfold bdim. rewrite Nat.eqb_refl; auto. Qed.
Lemma bdim_1_l : forall a, bdim 1 a = Some a.
Proof. intros; unfold bdim. destruct (Nat.eqb_spec 1 a); subst; auto. Qed.
Lemma bdim_1_r : forall a, bdim a 1 = Some a.
Proof. intros; unfold bdim. destruct (Nat.eqb_spec a 1); auto. Qed.
Lemma bdim_none : forall a b, a <> b -> a <> 1 -> b <> 1 -> bdim a b = None.
Proof. intros a b H1 H2 H3; unfold bdim. destruct (Nat.eqb_spec a b), (Nat.eqb_spec a 1), (Nat.eqb_spec b 1); congruence. Qed.
Lemma bdim_cases : forall a b, (a = b \/ a = 1 \/ b = 1) \/ (a <> b /\ a <> 1 /\ b <> 1).
Proof. intros; destruct (Nat.eq_dec a b), (Nat.eq_dec a 1), (Nat.eq_dec b 1); tauto. Qed.

Definition works {A} (r : res A) : Prop := match r with Ok _ => True | Err _ => False end.

Ltac bsimp := repeat first [rewrite bdim_same | rewrite bdim_1_l | rewrite bdim_1_r].
Lemma lift2_ok : forall A B C (f : A -> B -> C) x y s, bshape (shape x) (shape y) = Some s ->
  lift2 f x y = Ok (mknd s (fun i => f (bget x i) (bget y i))).
Proof. intros. unfold lift2. rewrite H. auto. Qed.
Lemma lift2_err : forall A B C (f : A -> B -> C) x y, bshape (shape x) (shape y) = None -> lift2 f x y = Err ShapeError.
Proof. intros. unfold lift2. rewrite H. auto. Qed.

(** D[..., a, b] = drift[..., a] * drift[..., b] *)
Definition outer (k b d : nat) (dr : nd (fl R)) : nd (fl R) :=
  mknd [k; b; d; d] (fun i => fmul (bget (newaxis_last dr) i) (bget (newaxis_before_last dr) i)).
Lemma outer_ok : forall k b d dr, shape dr = [k; b; d] -> lift2 fmul (newaxis_last dr) (newaxis_before_last dr) = Ok (outer k b d dr).
Proof. intros k b d dr H. apply lift2_ok. cbn. rewrite H. unfold bshape. cbn. bsimp. reflexivity. Qed.

Lemma factor_shape : forall smp dt alpha M, shape alpha = [M; 1] -> shape (cov_factor smp dt alpha) = if smp then [M; 1; 1] else [1].
Proof. intros. unfold cov_factor. destruct smp; cbn; rewrite ?H; auto. Qed.

(** what happens after the covariance of a shape [k; d; d] was formed *)
Lemma tail3_ok : forall ms smp lamda dt sigma alpha D xp drift z M b d,
  shape alpha = [M; 1] -> shape D = [M; d; d] -> shape drift = [M; b; d] -> shape xp = [M; b; d] ->
  works (n <- cov_noise ms smp dt alpha D (mknd (shape drift) z) ;; move lamda dt sigma xp drift n).
Proof.
  intros ms smp lamda dt sigma alpha D xp drift z M b d HA HD HR HX. unfold cov_noise, apply_cov_sqrt. cbn [shape cov_sqrt].
  rewrite HD, HR. cbn [length Nat.eqb]. bsimp. cbn [bind].
  rewrite (lift2_ok _ _ _ _ _ _ [M; b; d]).
  2:{ rewrite (factor_shape smp dt alpha M HA). destruct smp; unfold bshape; cbn; bsimp; reflexivity. }
  cbn [bind]. unfold move. rewrite (lift2_ok _ _ _ _ _ _ [M; b; d]).
  2:{ cbn. rewrite HR. unfold bshape; cbn; bsimp; reflexivity. }
  cbn [bind]. unfold iadd. rewrite (lift2_ok _ _ _ _ _ _ [M; b; d]).
  2:{ cbn. rewrite HX. unfold bshape; cbn; bsimp; reflexivity. }
  cbn [bind shape]. rewrite HX. destruct (list_eq_dec Nat.eq_dec [M; b; d] [M; b; d]); [exact I|congruence].
Qed.

Lemma move_wrong : forall lamda dt sigma xp drift n A b d k l, shape drift = [A; b; d] -> shape xp = [A; b; d] ->
  shape n = [k; l; d] -> (k <> A /\ k <> 1) \/ (l <> b /\ l <> 1) -> ~ works (move lamda dt sigma xp drift n).
Proof.
  intros lamda dt sigma xp drift n A b d k l HR HX Hn H. unfold move.
  destruct (bdim_cases A k) as [C1|(C1 & C2 & C3)].
  2:{ rewrite lift2_err; [cbn; tauto|]. cbn. rewrite HR, Hn. unfold bshape; cbn. bsimp. rewrite (bdim_none A k) by auto. destruct (bdim b l); reflexivity. }
  destruct (bdim_cases b l) as [D1|(D1 & D2 & D3)].
  2:{ rewrite lift2_err; [cbn; tauto|]. cbn. rewrite HR, Hn. unfold bshape; cbn. bsimp. rewrite (bdim_none b l) by auto. reflexivity. }
  destruct (bdim A k) as [p|] eqn:E1.
  2:{ exfalso. destruct C1 as [->|[->| ->]]; rewrite ?bdim_same, ?bdim_1_l, ?bdim_1_r in E1; discriminate. }
  destruct (bdim b l) as [q|] eqn:E2.
  2:{ exfalso. destruct D1 as [->|[->| ->]]; rewrite ?bdim_same, ?bdim_1_l, ?bdim_1_r in E2; discriminate. }
  rewrite (lift2_ok _ _ _ _ _ _ [p; q; d]).
  2:{ cbn. rewrite HR, Hn. unfold bshape; cbn; bsimp. rewrite E1, E2. reflexivity. }
  cbn [bind]. unfold iadd.
  destruct (bshape (shape xp) [p; q; d]) as [s|] eqn:E; [|rewrite lift2_err by (cbn; auto); cbn; tauto].
  rewrite (lift2_ok _ _ _ _ _ _ s) by (cbn; auto). cbn [bind shape]. rewrite HX in *.
  destruct (list_eq_dec Nat.eq_dec s [A; b; d]) as [->|]; [|cbn; tauto]. intros _.
  unfold bshape in E. cbn in E. rewrite bdim_same in E. destruct (bdim b q) eqn:G2; [|discriminate]. destruct (bdim A p) eqn:G1; [|discriminate].
  cbn in E. injection E as -> ->.
  unfold bdim in *.
  destruct H as [[H1 H2]|[H1 H2]].
  - destruct (Nat.eqb_spec A k); [congruence|]. destruct (Nat.eqb_spec A 1); [|destruct (Nat.eqb_spec k 1); congruence].
    injection E1 as <-. subst A. destruct (Nat.eqb_spec 1 k); [congruence|]. cbn in G1. congruence.
  - destruct (Nat.eqb_spec b l); [congruence|]. destruct (Nat.eqb_spec b 1); [|destruct (Nat.eqb_spec l 1); congruence].
    injection E2 as <-. subst b. destruct (Nat.eqb_spec 1 l); [congruence|]. cbn in G2. congruence.
Qed.

(** ** CBO / CBS *)
Theorem cov_step_works : forall ms smp lamda dt sigma alpha energy xp drift z M N d A b,
  shape alpha = [M; 1] -> shape energy = [M; N] -> shape drift = [A; b; d] -> shape xp = [A; b; d] ->
  1 <= A <= M -> 1 <= b <= N ->
  works (cov_step ms smp lamda dt sigma alpha energy xp drift z) <-> A = M /\ (b = N \/ b = 1).
Proof.
  intros ms smp lamda dt sigma alpha energy xp drift z M N d A b Ha He Hd Hx HA Hb. unfold cov_step, cbo_coeffs.
  rewrite (lift2_ok _ _ _ _ _ _ [M; N]).
  2:{ cbn. rewrite Ha, He. unfold bshape; cbn; bsimp; reflexivity. }
  cbn [bind]. unfold cov_of. rewrite (outer_ok A b d drift Hd). cbn [bind].
  match goal with |- context [lift2 fmul (outer A b d drift) ?Q] => set (co := Q) end.
  assert (Hco : shape co = [M; N; 1; 1]) by reflexivity. clearbody co.
  destruct (bdim_cases b N) as [Bb|(B1 & B2 & B3)].
  2:{ rewrite lift2_err; [cbn; split; [tauto|intros [_ [?|?]]; congruence]|]. rewrite Hco. unfold bshape; cbn. bsimp. rewrite bdim_none by auto. reflexivity. }
  assert (Eb : bdim b N = Some N).
  { destruct Bb as [->|[->| ->]]; rewrite ?bdim_same, ?bdim_1_l, ?bdim_1_r; auto. f_equal; lia. }
  assert (Hbb : b = N \/ b = 1) by lia.
  destruct (bdim_cases A M) as [Ba|(B1 & B2 & B3)].
  2:{ rewrite lift2_err; [cbn; tauto|]. rewrite Hco. unfold bshape; cbn. bsimp. rewrite Eb, bdim_none by auto. reflexivity. }
  assert (Ea : bdim A M = Some M).
  { destruct Ba as [->|[->| ->]]; rewrite ?bdim_same, ?bdim_1_l, ?bdim_1_r; auto. f_equal; lia. }
  rewrite (lift2_ok _ _ _ _ _ _ [M; N; d; d]).
  2:{ rewrite Hco. unfold bshape; cbn; bsimp. rewrite Eb, Ea. reflexivity. }
  cbn [bind]. unfold sum_axis3. cbn [shape rev app bind].
  match goal with |- context [cov_noise ms smp dt alpha ?Q] => set (D := Q) end.
  assert (HD : shape D = [M; d; d]) by reflexivity. clearbody D.
  destruct (Nat.eq_dec A M) as [->|NE].
  { split; [auto|]. intros _. apply (tail3_ok ms smp lamda dt sigma alpha D xp drift z M b d); auto. }
  assert (A = 1) by lia. subst A. split; [|intros [? _]; congruence]. intros W. exfalso. revert W.
  unfold cov_noise, apply_cov_sqrt. cbn [shape cov_sqrt]. rewrite HD, Hd. cbn [length Nat.eqb]. bsimp. cbn [bind].
  rewrite (lift2_ok _ _ _ _ _ _ [M; b; d]).
  2:{ rewrite (factor_shape smp dt alpha M Ha). destruct smp; unfold bshape; cbn; bsimp; reflexivity. }
  cbn [bind]. apply (move_wrong _ _ _ _ _ _ 1 b d M b); auto; left; lia.
Qed.

(** ** PolarCBO *)
Theorem polar_step_works : forall ms smp const lamda dt sigma alpha energy nl xp drift z M N d act,
  shape alpha = [M; 1] -> shape energy = [M; N] -> shape nl = [M; N; N] -> shape drift = [M; N; d] -> shape xp = [M; N; d] ->
  length act = M -> 1 <= M -> 1 <= N ->
  works (polar_cov_step ms smp const lamda dt sigma act alpha energy nl xp drift z) <-> M = 1 \/ M = N.
Proof.
  intros ms smp const lamda dt sigma alpha energy nl xp drift z M N d act Ha He Hn Hd Hx Hact HM HN.
  unfold polar_cov_step, polar_cov_coeffs.
  rewrite (lift2_ok _ _ _ _ _ _ [M; N; N]).
  2:{ cbn [lift1 shape]. rewrite Hn. destruct const; cbn [kernel_factor scalar shape]; rewrite ?Hact; unfold bshape; cbn; bsimp; reflexivity. }
  cbn [bind]. rewrite (lift2_ok _ _ _ _ _ _ [M; N]).
  2:{ rewrite Ha, He. unfold bshape; cbn; bsimp; reflexivity. }
  cbn [bind]. 
  destruct (bdim_cases N M) as [C|(C1 & C2 & C3)].
  2:{ rewrite lift2_err; [cbn; split; [tauto|intros [?|?]; congruence]|]. unfold bshape; cbn. bsimp. rewrite bdim_none by auto. reflexivity. }
  destruct (Nat.eq_dec N 1) as [->|HN1].
  - (* one particle *)
    rewrite (lift2_ok _ _ _ _ _ _ [M; M; 1]) by (cbn [shape]; unfold bshape; cbn; bsimp; reflexivity).
    cbn [bind]. unfold cov_of. rewrite (outer_ok M 1 d drift Hd). cbn [bind].
    match goal with |- context [lift2 fmul (outer M 1 d drift) ?Q] => set (co := Q) end.
    assert (Hco : shape co = [M; M; 1; 1; 1]) by reflexivity. clearbody co.
    rewrite (lift2_ok _ _ _ _ _ _ [M; M; 1; d; d]) by (rewrite Hco; unfold bshape; cbn; bsimp; reflexivity).
    cbn [bind]. unfold sum_axis3. cbn [shape rev app bind].
    match goal with |- context [cov_noise ms smp dt alpha ?Q] => set (D := Q) end.
    assert (HD : shape D = [M; M; d; d]) by reflexivity. clearbody D.
    unfold cov_noise, apply_cov_sqrt. cbn [shape cov_sqrt]. rewrite HD, Hd. cbn [length Nat.eqb]. bsimp. cbn [bind].
    rewrite (lift2_ok _ _ _ _ _ _ [M; M; d]).
    2:{ rewrite (factor_shape smp dt alpha M Ha). destruct smp; unfold bshape; cbn; bsimp; reflexivity. }
    cbn [bind]. destruct (Nat.eq_dec M 1) as [->|NE].
    + split; auto. intros _. unfold move.
      rewrite (lift2_ok _ _ _ _ _ _ [1; 1; d]) by (cbn; rewrite Hd; unfold bshape; cbn; bsimp; reflexivity).
      cbn [bind]. unfold iadd. rewrite (lift2_ok _ _ _ _ _ _ [1; 1; d]) by (cbn; rewrite Hx; unfold bshape; cbn; bsimp; reflexivity).
      cbn [bind shape]. rewrite Hx. destruct (list_eq_dec Nat.eq_dec [1; 1; d] [1; 1; d]); [exact I|congruence].
    + split; [|intros [?|?]; lia]. intros W. exfalso. revert W. apply (move_wrong _ _ _ _ _ _ M 1 d M M); auto.
  - (* M = 1 or M = N *)
    assert (HMN : M = 1 \/ M = N) by lia. split; auto. intros _.
    rewrite (lift2_ok _ _ _ _ _ _ [M; N; N]).
    2:{ cbn [shape]. unfold bshape; cbn; bsimp. destruct HMN as [->| ->]; bsimp; reflexivity. }
    cbn [bind]. unfold cov_of. rewrite (outer_ok M N d drift Hd). cbn [bind].
    match goal with |- context [lift2 fmul (outer M N d drift) ?Q] => set (co := Q) end.
    assert (Hco : shape co = [M; N; N; 1; 1]) by reflexivity. clearbody co.
    rewrite (lift2_ok _ _ _ _ _ _ [M; N; N; d; d]).
    2:{ rewrite Hco; unfold bshape; cbn; bsimp. destruct HMN as [->| ->]; bsimp; reflexivity. }
    cbn [bind]. unfold sum_axis3. cbn [shape rev app bind].
    match goal with |- context [cov_noise ms smp dt alpha ?Q] => set (D := Q) end.
    assert (HD : shape D = [M; N; d; d]) by reflexivity. clearbody D.
    unfold cov_noise, apply_cov_sqrt. cbn [shape cov_sqrt]. rewrite HD, Hd. cbn [length Nat.eqb]. bsimp. cbn [bind].
    rewrite (lift2_ok _ _ _ _ _ _ [M; N; d]).
    2:{ rewrite (factor_shape smp dt alpha M Ha). destruct smp; unfold bshape; cbn; bsimp; reflexivity. }
    cbn [bind]. unfold move.
    rewrite (lift2_ok _ _ _ _ _ _ [M; N; d]) by (cbn; rewrite Hd; unfold bshape; cbn; bsimp; reflexivity).
    cbn [bind]. unfold iadd. rewrite (lift2_ok _ _ _ _ _ _ [M; N; d]) by (cbn; rewrite Hx; unfold bshape; cbn; bsimp; reflexivity).
    cbn [bind shape]. rewrite Hx. destruct (list_eq_dec Nat.eq_dec [M; N; d] [M; N; d]); [exact I|congruence].
Qed.

(** ** values *)
Lemma ix : forall n i, i < n -> (if n =? 1 then 0 else i) = i.
Proof. intros n i H. destruct (Nat.eqb_spec n 1); auto. lia. Qed.

(** the run whose drift and energies enter the covariance of particle i of run m *)
Definition used_run (M m i : nat) : nat := if M =? 1 then m else i.

Theorem polar_cov_value : forall const alpha energy nl drift M N d act,
  shape alpha = [M; 1] -> shape energy = [M; N] -> shape nl = [M; N; N] -> shape drift = [M; N; d] ->
  length act = M -> 1 <= N -> M = 1 \/ M = N ->
  exists D, (co <- polar_cov_coeffs (kernel_factor const alpha act) nl alpha energy ;; cov_of co drift) = Ok D /\
    shape D = [M; N; d; d] /\
    forall m i a b r kf w, m < M -> i < N -> a < d -> b < d ->
      r = used_run M m i ->
      kf = (if const then Fin 1%R else get alpha [nth m act 0; 0]) ->
      w = softmax (map (fun j => fsub (fmul (fopp kf) (get nl [m; i; j])) (fmul (get alpha [r; 0]) (get energy [r; j]))) (seq 0 N)) ->
      get D [m; i; a; b] = fsum (map (fun j => fmul (fmul (get drift [r; j; a]) (get drift [r; j; b])) (nth j w NaN)) (seq 0 N)).
Proof.
  intros const alpha energy nl drift M N d act Ha He Hn Hd Hact HN HMN. unfold polar_cov_coeffs.
  rewrite (lift2_ok _ _ _ _ _ _ [M; N; N]).
  2:{ cbn [lift1 shape]. rewrite Hn. destruct const; cbn [kernel_factor scalar shape]; rewrite ?Hact; unfold bshape; cbn; bsimp; reflexivity. }
  cbn beta iota delta [bind]. rewrite (lift2_ok _ _ _ _ _ _ [M; N]).
  2:{ rewrite Ha, He. unfold bshape; cbn; bsimp; reflexivity. }
  cbn beta iota delta [bind]. rewrite (lift2_ok _ _ _ _ _ _ [M; N; N]).
  2:{ cbn [shape]. unfold bshape; cbn; bsimp. destruct HMN as [->| ->]; bsimp; reflexivity. }
  cbn beta iota delta [bind]. unfold cov_of. rewrite (outer_ok M N d drift Hd). cbn beta iota delta [bind].
  rewrite (lift2_ok _ _ _ _ _ _ [M; N; N; d; d]).
  2:{ unfold outer, newaxis_last, softmax_last, bshape; cbn; bsimp. destruct HMN as [->| ->]; bsimp; reflexivity. }
  cbn beta iota delta [bind]. unfold sum_axis3. cbn beta iota delta [shape rev app bind]. eexists. split; [reflexivity|]. split; [reflexivity|].
  intros m i a b r kf w Hm Hi Ha1 Hb1 Hr0 Hkf Hw. cbn [get shape rev app]. f_equal. apply map_ext_in. intros j Hj. apply in_seq in Hj.
  assert (Hr : r = (if M =? 1 then 0 else i)).
  { rewrite Hr0. unfold used_run. destruct (Nat.eqb_spec M 1); auto. lia. }
  assert (Hr2 : r < M). { rewrite Hr. destruct (Nat.eqb_spec M 1); lia. }
  f_equal.
  - unfold bget at 1. cbn [outer shape rev app proj_rev get].
    rewrite (ix d a), (ix d b), (ix N j) by lia. rewrite <- Hr. f_equal.
    + unfold bget. cbn [newaxis_last shape]. rewrite Hd. cbn [rev app proj_rev Nat.eqb get newaxis_last removelast].
      rewrite (ix d a), (ix N j), (ix M r) by lia. reflexivity.
    + unfold bget. cbn [newaxis_before_last shape]. rewrite Hd. cbn [rev app proj_rev Nat.eqb get newaxis_before_last removelast last].
      rewrite (ix d b), (ix N j), (ix M r) by lia. reflexivity.
  - unfold bget at 1. cbn [newaxis_last softmax_last shape rev app proj_rev Nat.eqb get removelast last].
    rewrite (ix N j), (ix N i), (ix M m) by lia. cbn [removelast app last]. f_equal. rewrite Hw. f_equal.
    apply map_ext_in. intros j' Hj'. apply in_seq in Hj'.
    unfold bget at 1 4. cbn [shape rev app proj_rev get].
    rewrite (ix N j'), (ix N i), (ix M m) by lia. f_equal.
    + f_equal.
      * rewrite Hkf. destruct const; cbn [kernel_factor lift1 scalar].
        -- reflexivity.
        -- unfold bget, lift1. cbn [shape rev app proj_rev get]. rewrite Hact. rewrite (ix M m) by lia. reflexivity.
      * unfold bget. rewrite Hn. cbn [rev app proj_rev]. rewrite (ix N j'), (ix N i), (ix M m) by lia. reflexivity.
    + rewrite <- Hr. f_equal.
      * unfold bget. rewrite Ha. cbn [rev app proj_rev]. rewrite (ix M r) by lia. reflexivity.
      * unfold bget. rewrite He. cbn [rev app proj_rev]. rewrite (ix N j'), (ix M r) by lia. reflexivity.
Qed.

(** For M = N: run 0 has all drifts zero, yet particle 1 of run 0 gets the covariance of run 1. *)
Definition mixA (n : nat) : nd (fl R) := mknd [n; 1] (fun _ => Fin 1%R).
Definition mixE (n : nat) : nd (fl R) := mknd [n; n] (fun _ => Fin 0%R).
Definition mixL (n : nat) : nd (fl R) := mknd [n; n; n] (fun _ => Fin 0%R).
Definition mixD (n : nat) : nd (fl R) := mknd [n; n; 1] (fun i => match i with 1 :: _ => Fin 1%R | _ => Fin 0%R end).

Lemma seq_softmax_sum : forall w, soft_ok w -> fsum (map (fun j => fmul (Fin 1%R) (nth j (softmax w) NaN)) (seq 0 (length w))) = Fin 1%R.
Proof.
  intros w H. rewrite (softmax_char w H). set (g := fun v => (ew v / Rsum (map ew w))%R).
  rewrite (map_ext_in _ (fun j => Fin (nth j (map g w) 0%R))).
  2:{ intros j Hj. apply in_seq in Hj. rewrite (nth_indep _ NaN (Fin 0%R)) by (rewrite !map_length; lia). rewrite (map_nth Fin). cbn. f_equal. ring. }
  rewrite <- (map_map (fun j => nth j (map g w) 0%R) Fin), fsum_fin. f_equal.
  replace (length w) with (length (map g w)) by apply map_length. rewrite map_nth_seq.
  unfold g. rewrite Rsum_map_div. assert (P := ew_sum_pos w H). field. lra.
Qed.

Theorem polar_mixes : forall n, 2 <= n -> exists D,
  (co <- polar_cov_coeffs (kernel_factor true (mixA n) (seq 0 n)) (mixL n) (mixA n) (mixE n) ;; cov_of co (mixD n)) = Ok D /\
  get D [0; 1; 0; 0] = Fin 1%R.
Proof.
  intros n Hn. destruct (polar_cov_value true (mixA n) (mixE n) (mixL n) (mixD n) n n 1 (seq 0 n)) as (D & H1 & _ & H3); auto.
  { apply seq_length. } { lia. }
  exists D. split; auto. rewrite (H3 0 1 0 0 1 (Fin 1%R) _) by (try lia; try reflexivity; unfold used_run; destruct (Nat.eqb_spec n 1); lia).
  match goal with |- context [softmax ?l] => set (w := l) end.
  assert (Hw : length w = n) by (unfold w; rewrite map_length, seq_length; auto).
  rewrite <- (seq_softmax_sum w).
  2:{ split.
      - intros v Hv. apply in_map_iff in Hv. destruct Hv as (j & <- & _). left. eexists. reflexivity.
      - exists (- (1) * 0 - 1 * 0)%R. apply in_map_iff. exists 0. split; [reflexivity|apply in_seq; lia]. }
  rewrite Hw. f_equal. apply map_ext. intros j. cbn. rewrite Rmult_1_l. reflexivity.
Qed.
