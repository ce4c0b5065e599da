(** * weighted_L2 inside MirrorCBO: lemmas *)
From Coq Require Import String List Arith Bool Reals Lia Lra.
From Verif Require Import Scalar ScalarFacts Np NpFacts State Pdyn PdynFacts PdynStep PdynRun Exec PdynOk MemSpec MemFacts3 StepFrame
  RVec Consensus Nd NdPart NdPartFacts Variant VarSpec VarFacts VarMove VarExactSpec VarExact WL2 WL2Spec.
Import ListNotations.
Open Scope nat_scope.
Open Scope list_scope.

(** ** Reshaping away an axis of length one *)

Lemma size_pos : forall s i, inb i s -> 0 < size s.
Proof. induction 1; cbn; [lia|]. unfold size in IHForall2. nia. Qed.
Lemma ravel_lt : forall s i, inb i s -> ravel s i < size s.
Proof.
  intros s i H. induction H as [|k n i s Hk Hi IH]; cbn [ravel size fold_right]; [lia|]. fold (size s). nia.
Qed.
Lemma unravel_ravel : forall s i, inb i s -> unravel s (ravel s i) = i.
Proof.
  intros s i H. induction H as [|k n i s Hk Hi IH]; cbn [ravel unravel]; auto.
  pose proof (ravel_lt s i Hi) as L.
  assert (E : k * size s + ravel s i = size s * k + ravel s i) by lia. rewrite E.
  rewrite <- (Nat.div_unique (size s * k + ravel s i) (size s) k (ravel s i) L eq_refl).
  rewrite <- (Nat.mod_unique (size s * k + ravel s i) (size s) k (ravel s i) L eq_refl). rewrite IH. auto.
Qed.
Lemma size_app : forall s t, size (s ++ t) = size s * size t.
Proof. unfold size. induction s; intros t; cbn; [lia|]. rewrite IHs. lia. Qed.
Lemma ravel_one : forall s1 s2 i1 i2, length s1 = length i1 -> ravel (s1 ++ 1 :: s2) (i1 ++ 0 :: i2) = ravel (s1 ++ s2) (i1 ++ i2).
Proof.
  induction s1 as [|n s1 IH]; intros s2 [|k i1] i2 L; try discriminate; cbn [app ravel]; [lia|].
  rewrite IH by (cbn in L; lia). rewrite !size_app. cbn [size fold_right]. fold (size s2). lia.
Qed.

(** an array with an axis of length one, reshaped to the shape without it *)
Lemma reshape_one : forall s1 s2 x, shape x = s1 ++ 1 :: s2 ->
  exists y, reshape (s1 ++ s2) x = Ok y /\ shape y = s1 ++ s2 /\
    forall i1 i2, inb i1 s1 -> inb i2 s2 -> get y (i1 ++ i2) = get x (i1 ++ 0 :: i2).
Proof.
  intros s1 s2 x E. unfold reshape. rewrite E, !size_app. cbn [size fold_right]. fold (size s2).
  replace (size s1 * (1 * size s2)) with (size s1 * size s2) by lia. rewrite Nat.eqb_refl.
  eexists. split; [reflexivity|]. split; [reflexivity|]. intros i1 i2 H1 H2. cbn [get].
  rewrite <- (ravel_one s1 s2 i1 i2) by (apply inb_len; auto). rewrite unravel_ravel; auto.
  apply Forall2_app; auto.
Qed.

(** ** The symmetric part of a square matrix *)
Lemma sym_part : forall (A : nd (fl R)) k, shape A = [k; k] -> exists s, lift2 fadd A (transpose A) = Ok s /\ shape s = [k; k] /\
  forall i j, i < k -> j < k -> get s [i; j] = fadd (get A [i; j]) (get A [j; i]).
Proof.
  intros A k E. unfold lift2, transpose. cbn [shape]. rewrite E. cbn [rev app].
  rewrite (bok_bshape _ _ _ (bok_refl [k; k])). eexists. split; [reflexivity|]. split; [reflexivity|].
  intros i j Hi Hj. cbn [get]. assert (B : inb [i; j] [k; k]) by (repeat constructor; auto).
  rewrite (bget_inb _ A) by (rewrite E; auto). rewrite (bget_inb _ (mknd [k; k] _)) by auto. reflexivity.
Qed.

Definition sym_entry (A : nd (fl R)) (i j : nat) : fl R := fmul (Fin (1 / 2)%R) (fadd (get A [i; j]) (get A [j; i])).

(** one entry of the product, for a stack of matrices [pre ++ [k; b]] *)
Lemma matmul_entry : forall S x k pre b, shape S = [k; k] -> shape x = pre ++ [k; b] ->
  exists y, matmul2 S x = Ok y /\ shape y = pre ++ [k; b] /\
    forall ip i l, get y (ip ++ [i; l]) = fsum (map (fun j => fmul (get S [i; j]) (get x (ip ++ [j; l]))) (seq 0 k)).
Proof.
  intros S x k pre b ES EX. unfold matmul2. rewrite ES, EX, rev_app_distr. cbn [rev app]. rewrite Nat.eqb_refl.
  eexists. split; [reflexivity|]. cbn [shape get]. rewrite rev_involutive. split; [reflexivity|].
  intros ip i l. rewrite rev_app_distr. cbn [rev app]. rewrite rev_involutive. reflexivity.
Qed.

Lemma sum_sym : forall (s A : nd (fl R)) k (f : nat -> fl R) i, i < k ->
  (forall i j, i < k -> j < k -> get s [i; j] = fadd (get A [i; j]) (get A [j; i])) ->
  fsum (map (fun j => fmul (get (lift1 (fmul (Fin (1 / 2)%R)) s) [i; j]) (f j)) (seq 0 k)) =
  fsum (map (fun j => fmul (sym_entry A i j) (f j)) (seq 0 k)).
Proof.
  intros s A k f i Hi H. f_equal. apply map_ext_in. intros j Hj. apply in_seq in Hj. unfold sym_entry. cbn [get lift1].
  rewrite H by lia. reflexivity.
Qed.

(** ensembles of shape (M, N, d): only 1 x 1 matrices are accepted *)
Lemma grad_vector : forall (A theta : nd (fl R)) k M N d, shape A = [k; k] -> shape theta = [M; N; d] -> k <> 1 ->
  wl2_grad A theta = Err ShapeError.
Proof.
  intros A theta k M N d EA ET Hk. destruct (sym_part A k EA) as (s & E & Es & _). unfold wl2_grad. rewrite E. cbn [bind].
  unfold matmul2, newaxis2, lift1. cbn [shape]. rewrite Es, ET. cbn [shape rev app].
  destruct (Nat.eqb_spec k 1); [contradiction|]. reflexivity.
Qed.
Lemma fsum_one : forall a : fl R, fsum [a] = a.
Proof. intros [x| | |]; cbn; auto. f_equal. lra. Qed.
Lemma half_twice : forall a : R, fmul (Fin (1 / 2)%R) (fadd (Fin a) (Fin a)) = Fin a.
Proof. intros a. cbn. f_equal. lra. Qed.
Lemma grad_one : forall (A theta : nd (fl R)) a M N d, shape A = [1; 1] -> get A [0; 0] = Fin a -> shape theta = [M; N; d] ->
  exists y, wl2_grad A theta = Ok y /\ shape y = [M; N; d] /\
    forall m n i, m < M -> n < N -> i < d -> get y [m; n; i] = fmul (Fin a) (get theta [m; n; i]).
Proof.
  intros A theta a M N d EA Ea ET. destruct (sym_part A 1 EA) as (s & E & Es & Hs). unfold wl2_grad. rewrite E. cbn [bind].
  destruct (matmul_entry (lift1 (fmul (Fin (1 / 2)%R)) s) (newaxis2 theta) 1 [M; N] d) as (p & Ep & Hp & Gp).
  { exact Es. } { unfold newaxis2. rewrite ET. reflexivity. }
  rewrite Ep. cbn [bind]. rewrite ET.
  destruct (reshape_one [M; N] [d] p Hp) as (y & Ey & Hy & Gy). exists y. split; [exact Ey|]. split; [exact Hy|].
  intros m n i Hm Hn Hi. pose proof (Gy [m; n] [i]) as G1. pose proof (Gp [m; n] 0 i) as G2. cbn [app] in G1, G2. rewrite G1 by (repeat constructor; auto). rewrite G2, (sum_sym s A) by auto.
  cbn [seq map]. rewrite fsum_one. unfold sym_entry. rewrite Ea, half_twice. unfold newaxis2. rewrite ET. reflexivity.
Qed.

(** arrays of shape (n, d): one matrix product per row *)
Lemma grad_rows : forall (A theta : nd (fl R)) n d, shape A = [d; d] -> shape theta = [n; d] ->
  exists y, wl2_grad A theta = Ok y /\ shape y = [n; d] /\
    forall p i, p < n -> i < d -> get y [p; i] = fsum (map (fun j => fmul (sym_entry A i j) (get theta [p; j])) (seq 0 d)).
Proof.
  intros A theta n d EA ET. destruct (sym_part A d EA) as (s & E & Es & Hs). unfold wl2_grad. rewrite E. cbn [bind].
  destruct (matmul_entry (lift1 (fmul (Fin (1 / 2)%R)) s) (newaxis2 theta) d [n] 1) as (p & Ep & Hp & Gp).
  { exact Es. } { unfold newaxis2. rewrite ET. reflexivity. }
  rewrite Ep. cbn [bind]. rewrite ET.
  destruct (reshape_one [n; d] [] p Hp) as (y & Ey & Hy & Gy). exists y. split; [exact Ey|]. split; [exact Hy|].
  intros q i Hq Hi. pose proof (Gy [q; i] []) as G1. pose proof (Gp [q] i 0) as G2. cbn [app] in G1, G2. rewrite G1 by (repeat constructor; auto). rewrite G2, (sum_sym s A) by auto.
  f_equal. apply map_ext. intros j. unfold newaxis2. rewrite ET. reflexivity.
Qed.

(** matrix-shaped particles: multiplication from the left *)
Lemma grad_matrix : forall (A theta : nd (fl R)) M N d1 d2, shape A = [d1; d1] -> shape theta = [M; N; d1; d2] ->
  exists y, wl2_grad A theta = Ok y /\ shape y = [M; N; d1; d2] /\
    forall m n i l, m < M -> n < N -> i < d1 -> l < d2 ->
      get y [m; n; i; l] = fsum (map (fun j => fmul (sym_entry A i j) (get theta [m; n; j; l])) (seq 0 d1)).
Proof.
  intros A theta M N d1 d2 EA ET. destruct (sym_part A d1 EA) as (s & E & Es & Hs). unfold wl2_grad. rewrite E. cbn [bind].
  destruct (matmul_entry (lift1 (fmul (Fin (1 / 2)%R)) s) (newaxis2 theta) d1 [M; N; 1] d2) as (p & Ep & Hp & Gp).
  { exact Es. } { unfold newaxis2. rewrite ET. reflexivity. }
  rewrite Ep. cbn [bind]. rewrite ET.
  destruct (reshape_one [M; N] [d1; d2] p Hp) as (y & Ey & Hy & Gy). exists y. split; [exact Ey|]. split; [exact Hy|].
  intros m n i l Hm Hn Hi Hl. pose proof (Gy [m; n] [i; l]) as G1. pose proof (Gp [m; n; 0] i l) as G2. cbn [app] in G1, G2.
  rewrite G1 by (repeat constructor; auto). rewrite G2, (sum_sym s A) by auto.
  f_equal. apply map_ext. intros j. unfold newaxis2. rewrite ET. reflexivity.
Qed.

(** ** Memory *)

Section HeapFacts.
  Context {K V : Type} {O : KOps K}.
  Notation F := (fl K).
  Notation st := (st K V).
  Notation cfg := (cfg K V).
  Notation orc := (orc V).
  Notation heap := (heap V).

  Lemma put_length : forall (l : list (arr V)) r v, length (put r v l) = length l.
  Proof. induction l; intros [|r] v; cbn; auto. Qed.
  Lemma put_same : forall (l : list (arr V)) r v d, r < length l -> nth r (put r v l) d = v.
  Proof. induction l; intros [|r] v d H; cbn in *; try lia; auto. apply IHl. lia. Qed.
  Lemma put_other : forall (l : list (arr V)) r q v d, r <> q -> nth q (put r v l) d = nth q l d.
  Proof. induction l; intros [|r] [|q] v d H; cbn in *; auto; try congruence. Qed.
  Lemma new_x_rx : forall v (h : heap), deref (new_x v h) (rx (new_x v h)) = v.
  Proof. intros. unfold deref, new_x. cbn. rewrite app_nth2, Nat.sub_diag by lia. reflexivity. Qed.
  Lemma new_x_old : forall v (h : heap) r, r < length (cells h) -> deref (new_x v h) r = deref h r.
  Proof. intros. unfold deref, new_x. cbn. rewrite app_nth1; auto. Qed.
  Lemma write_same : forall r v (h : heap), r < length (cells h) -> deref (write r v h) r = v.
  Proof. intros. apply put_same; auto. Qed.
  Lemma write_other : forall r q v (h : heap), r <> q -> deref (write r v h) q = deref h q.
  Proof. intros. apply put_other; auto. Qed.

  (** what a step does to the two arrays *)
  Lemma step_heap : forall (g : option (V -> V)) nn cl y (h : heap), ry h < length (cells h) ->
    let h' := post_heap nn cl (assign_conj g (write (ry h) y h)) in
    ry h' < length (cells h') /\ rx h' <> ry h' /\
    deref h' (rx h') = map (map cl) (map (map nn) (map (map (conj_fun g)) y)) /\
    deref h' (ry h') = match g with Some _ => y | None => map (map nn) y end.
  Proof.
    intros g nn cl y h L. cbv zeta. unfold post_heap. set (h1 := write (ry h) y h).
    assert (L1 : length (cells h1) = length (cells h)) by apply put_length.
    assert (Y1 : deref h1 (ry h) = y) by (apply write_same; auto).
    destruct g as [g|]; cbn [assign_conj conj_fun].
    - set (h2 := new_x (map (map g) (deref h1 (ry h1))) h1).
      assert (L2 : length (cells h2) = S (length (cells h))) by (unfold h2, new_x; cbn [cells]; rewrite app_length, L1; cbn [length]; lia).
      assert (X2 : deref h2 (rx h2) = map (map g) y) by (unfold h2; rewrite new_x_rx; change (ry h1) with (ry h); rewrite Y1; auto).
      assert (R2 : rx h2 = length (cells h)) by (exact L1).
      assert (Y2 : deref h2 (ry h) = y) by (unfold h2; rewrite new_x_old by lia; auto).
      rewrite X2. set (h3 := write (rx h2) (map (map nn) (map (map g) y)) h2).
      assert (L3 : length (cells h3) = S (length (cells h))) by (unfold h3, write; cbn [cells]; rewrite put_length; auto).
      assert (X3 : deref h3 (rx h3) = map (map nn) (map (map g) y)) by (apply (write_same (rx h2)); rewrite L2, R2; lia).
      assert (Y3 : deref h3 (ry h) = y) by (unfold h3; rewrite write_other by lia; auto).
      rewrite X3. set (h4 := new_x _ h3).
      assert (ry h4 = ry h) as -> by reflexivity. assert (rx h4 = S (length (cells h))) as Er by exact L3.
      split; [unfold h4, new_x; cbn [cells]; rewrite app_length, L3; lia|]. split; [lia|].
      split; [apply new_x_rx|]. unfold h4. rewrite new_x_old by lia. exact Y3.
    - set (h2 := mkheap (cells h1) (ry h1) (ry h1)). change (deref h2 (rx h2)) with (deref h1 (ry h)). rewrite Y1.
      set (h3 := write (rx h2) (map (map nn) y) h2).
      assert (L3 : length (cells h3) = length (cells h)) by (unfold h3, write; cbn [cells]; rewrite put_length; exact L1).
      assert (X3 : deref h3 (rx h3) = map (map nn) y) by (apply (write_same (rx h2)); change (length (cells h2)) with (length (cells h1)); rewrite L1; exact L).
      rewrite X3. set (h4 := new_x _ h3).
      assert (ry h4 = ry h) as -> by reflexivity. assert (rx h4 = length (cells h)) as Er by exact L3.
      split; [unfold h4, new_x; cbn [cells]; rewrite app_length, L3; lia|]. split; [lia|].
      split. { unfold h4. rewrite new_x_rx. f_equal. f_equal. rewrite <- (map_id y) at 1. apply map_ext. intros r. symmetry. apply map_id. }
      unfold h4. rewrite new_x_old by lia. exact X3.
  Qed.

  Lemma hstep_iff : forall g nn cl (c : cfg) (o : orc) s (h : heap) s' h',
    hstep g nn cl c o (s, h) = Ok (s', h') <->
    exists y', vstep (mirror_inner (conj_fun g)) c o (s, deref h (ry h)) = Ok (s', y') /\
      h' = post_heap nn cl (assign_conj g (write (ry h) y' h)).
  Proof.
    intros. unfold hstep, vstep. cbn [fst snd].
    destruct (pre_step c o s) as [s1|]; cbn [bind]; [|split; [discriminate|intros (y & E & _); discriminate]].
    destruct (mirror_inner _ c o s1 _) as [[s2 y2]|]; cbn [bind fst snd]; [|split; [discriminate|intros (y & E & _); discriminate]].
    destruct (post_step c s2) as [s3|]; cbn [bind]; [|split; [discriminate|intros (y & E & _); discriminate]].
    split.
    - intros E. injection E as <- <-. eauto.
    - intros (y & E & ->). injection E as <- <-. reflexivity.
  Qed.

  Section Sessions.
    Variables (g : option (V -> V)) (gr nn cl : V -> V) (c : cfg).
    Hypothesis PP : forall v, c_pp c v = cl (nn v).

    (** what holds of the memory in every reachable state *)
    Definition memory_ok (n : nat) (s : st) (h : heap) : Prop :=
      wf c s /\ rect (s_M s) (s_N s) (deref h (ry h)) /\ ry h < length (cells h) /\ rx h <> ry h /\ s_x s = deref h (rx h) /\
      (n = 0 -> deref h (ry h) = map (map gr) (s_x s)) /\
      (n <> 0 -> match g with
                 | Some g => s_x s = map (map (fun v => c_pp c (g v))) (deref h (ry h))
                 | None => s_x s = map (map cl) (deref h (ry h)) /\ exists y, deref h (ry h) = map (map nn) y
                 end).

    Lemma map_map2 : forall A B C (p : B -> C) (q : A -> B) l, map (map p) (map (map q) l) = map (map (fun v => p (q v))) l.
    Proof. intros. rewrite map_map. apply map_ext. intros. apply map_map. Qed.
    Lemma rect_map : forall (f : V -> V) M N (a : arr V), rect M N a -> rect M N (map (map f) a).
    Proof.
      intros f M N a [L H]. split. { rewrite map_length; auto. } intros k row E. rewrite nth_error_map in E.
      destruct (nth_error a k) as [r|] eqn:Er; [|discriminate]. injection E as <-. rewrite map_length. eauto.
    Qed.

    Lemma session_memory : forall n s (h : heap) log, hexec g gr nn cl c n (s, h) log -> memory_ok n s h.
    Proof.
      intros n s h log H. remember (s, h) as p eqn:Ep. revert s h Ep. induction H; intros s1 h1 Ep; injection Ep as <- <-.
      - pose proof (constructed_wf _ _ H) as W. split; auto. unfold heap0, deref. cbn. split; [apply (attr_mirror gr c); auto|].
        repeat split; auto; try lia.
      - destruct (IHhexec _ _ eq_refl) as (W & R & L & D & Ex & _). apply hstep_iff in H2. destruct H2 as (y' & E & ->).
        destruct (vstep_good _ _ _ (mirror_regular (conj_fun g)) c o s _ s' y' I W (perms_valid_ok _ _ H0) H1 R E) as [GS R'].
        destruct GS as (W' & (EM & EN & _) & _).
        destruct (step_heap g nn cl y' h L) as (A1 & A2 & A3 & A4).
        destruct (mirror_step_char _ c o s _ s' y' W (perms_valid_ok _ _ H0) R E) as [Ex' _].
        split; auto. rewrite A4. split. { rewrite EM, EN. destruct g; auto. apply rect_map. auto. }
        split; auto. split; auto. split. { rewrite A3, Ex'. rewrite !map_map2. apply map_ext. intros r. apply map_ext. intros v. apply PP. }
        split; [lia|]. intros _. destruct g as [g'|]; auto. split.
        + rewrite Ex'. rewrite map_map2. apply map_ext. intros r. apply map_ext. intros v. apply PP.
        + eauto.
      - destruct (IHhexec _ _ eq_refl) as (W & R & Q). assert (W' : wf c s') by (eapply terminate_wf; eauto).
        apply terminate_char in H0. destruct H0 as (act & reason & -> & _). split; [exact W'|]; sst; auto.
      - destruct (IHhexec _ _ eq_refl) as (W & R & Q). assert (W' : wf c s') by (eapply params_wf; eauto).
        destruct H0 as (al & sg & la & d & _ & ->). split; [exact W'|]; sst; auto.
      - destruct (IHhexec _ _ eq_refl) as (W & R & Q). split; [apply reset_wf; auto|].
        destruct (reset_char s) as (ts & hh & -> & _). sst; auto.
    Qed.

    (** maps that return new arrays: the sessions with memory are the sessions of C52 *)
    Lemma fresh_sessions : forall g', g = Some g' -> forall n s (h : heap) log, hexec g gr nn cl c n (s, h) log ->
      vexec (mirror_inner g') (mirror_attr gr) c n (s, deref h (ry h)) log.
    Proof.
      intros g' Eg n s h log H. remember (s, h) as p eqn:Ep. revert s h Ep. induction H; intros s1 h1 Ep; injection Ep as <- <-.
      - change (deref (heap0 gr s) (ry (heap0 gr s))) with (mirror_attr gr s). apply vx_init. auto.
      - destruct (session_memory _ _ _ _ H) as (W & R & L & D & Ex & _).
        apply hstep_iff in H2. destruct H2 as (y' & E & ->). destruct (step_heap g nn cl y' h L) as (_ & _ & _ & A4).
        rewrite A4. rewrite Eg in E |- *. eapply vx_step; eauto.
      - eapply vx_term; eauto.
      - eapply vx_params; eauto.
      - eapply vx_reset; eauto.
    Qed.

    (** weighted_L2 *)
    Theorem wl2_state : g = None -> forall n s (h : heap) log, hexec g gr nn cl c n (s, h) log -> n <> 0 ->
      s_x s = map (map cl) (deref h (ry h)) /\ exists y, deref h (ry h) = map (map nn) y.
    Proof. intros Eg n s h log H Hn. destruct (session_memory _ _ _ _ H) as (_ & _ & _ & _ & _ & _ & Q). rewrite Eg in Q. auto. Qed.

    Theorem wl2_step_cbo : g = None -> forall n s (h : heap) log o s', hexec g gr nn cl c n (s, h) log ->
      deref h (rx h) = deref h (ry h) ->
      (step c o s = Ok s' <-> exists h', hstep g nn cl c o (s, h) = Ok (s', h')).
    Proof.
      intros Eg n s h log o s' H Ey. destruct (session_memory _ _ _ _ H) as (_ & _ & _ & _ & Ex & _). rewrite Ey in Ex.
      rewrite (mirror_id_step (conj_fun g) c o s s') by (rewrite Eg; auto). rewrite Ex. split.
      - intros (y' & E). eexists. apply hstep_iff. eauto.
      - intros (h' & E). apply hstep_iff in E. destruct E as (y' & E & _). eauto.
    Qed.

    (** how the dual points move *)
    Theorem wl2_move : g = None -> one_consensus_point c -> c_corr c = NoCorr ->
      forall n s (h : heap) log o s' h', hexec g gr nn cl c n (s, h) log -> perms_valid o s ->
      hstep g nn cl c o (s, h) = Ok (s', h') ->
      forall k m i v yv, nth_error (s_active s) k = Some m -> cell (s_x s) m i = Some v -> cell (deref h (ry h)) m i = Some yv ->
        exists w, cell (deref h' (ry h')) m i = Some (nn w) /\ cell (s_x s') m i = Some (cl (nn w)) /\
          match last_index i (run_selp c o s m) with
          | None => w = yv
          | Some j => exists cp, own_consensus c o s m cp /\
              w = c_vadd c yv (c_vadd c (c_vscale c (fmul (fopp (s_lamda s)) (s_dt s)) (c_vsub c v cp)) (kick c s v cp (o_z o k j)))
          end.
    Proof.
      intros Eg C1 NC n s h log o s' h' H P HS k m i v yv Hk Hv Hy. destruct (session_memory _ _ _ _ H) as (W & R & L & _).
      apply hstep_iff in HS. destruct HS as (y' & E & ->). destruct (step_heap g nn cl y' h L) as (_ & _ & _ & A4).
      destruct (mirror_move_wf _ c s _ o s' y' C1 NC W R (perms_valid_ok _ _ P) E k m i v yv Hk Hv Hy) as (w & B1 & B2 & B3).
      exists w. rewrite A4, Eg, cell_map, B1. split; [reflexivity|]. split; [|exact B3]. rewrite B2, PP, Eg. reflexivity.
    Qed.
  End Sessions.
End HeapFacts.
