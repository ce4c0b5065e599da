(** * C121: the mirror map weighted_L2 inside MirrorCBO *)
From Coq Require Import String List Arith Bool ZArith Reals.
From Verif Require Import Scalar Np State Pdyn Exec PdynStep MemSpec RVec Consensus Nd Variant VarSpec VarExactSpec WL2 WL2Spec WL2Facts ExWL2.
Import ListNotations.
Open Scope nat_scope.
Open Scope list_scope.

(** C121. REFUTED: MirrorCBO accepts weighted_L2 with a d x d matrix for d-dimensional particles. *)
Theorem C121_vectors_refuted :
  ~ (forall (A theta : nd (fl R)) M N d, shape A = [d; d] -> shape theta = [M; N; d] -> exists y, wl2_grad A theta = Ok y).
Proof. exact vectors_refuted. Qed.
Print Assumptions C121_vectors_refuted.

(** C121. On ensembles of shape (M, N, d) every matrix that is not 1 x 1 raises, in the constructor. *)
Theorem C121_vectors_raise : forall (A theta : nd (fl R)) k M N d, shape A = [k; k] -> shape theta = [M; N; d] -> k <> 1 ->
  wl2_grad A theta = Err ShapeError.
Proof. exact grad_vector. Qed.
Print Assumptions C121_vectors_raise.

(** C121. A 1 x 1 matrix (the default is np.eye(1)) multiplies every coordinate by its entry. *)
Theorem C121_scalar : forall (A theta : nd (fl R)) a M N d, shape A = [1; 1] -> get A [0; 0] = Fin a -> shape theta = [M; N; d] ->
  exists y, wl2_grad A theta = Ok y /\ shape y = [M; N; d] /\
    forall m n i, m < M -> n < N -> i < d -> get y [m; n; i] = fmul (Fin a) (get theta [m; n; i]).
Proof. exact grad_one. Qed.
Print Assumptions C121_scalar.
Example C121_scalar_ex : shape eye1 = [1; 1] /\ get eye1 [0; 0] = Fin 1%R /\ shape wtheta = [1; 2; 2] /\ shape wmat = [2; 2].
Proof. repeat split. Qed.

(** C121. The formula is written for arrays of shape (n, d): there the result is (A + A^T)/2 times every row; for
    matrix-shaped particles it is a product from the left. *)
Theorem C121_rows : forall (A theta : nd (fl R)) n d, shape A = [d; d] -> shape theta = [n; d] ->
  exists y, wl2_grad A theta = Ok y /\ shape y = [n; d] /\
    forall p i, p < n -> i < d ->
      get y [p; i] = fsum (map (fun j => fmul (fmul (Fin (1 / 2)%R) (fadd (get A [i; j]) (get A [j; i]))) (get theta [p; j])) (seq 0 d)).
Proof. exact grad_rows. Qed.
Print Assumptions C121_rows.
Theorem C121_matrices : forall (A theta : nd (fl R)) M N d1 d2, shape A = [d1; d1] -> shape theta = [M; N; d1; d2] ->
  exists y, wl2_grad A theta = Ok y /\ shape y = [M; N; d1; d2] /\
    forall m n i l, m < M -> n < N -> i < d1 -> l < d2 ->
      get y [m; n; i; l] = fsum (map (fun j => fmul (fmul (Fin (1 / 2)%R) (fadd (get A [i; j]) (get A [j; i]))) (get theta [m; n; j; l])) (seq 0 d1)).
Proof. exact grad_matrix. Qed.
Print Assumptions C121_matrices.
Example C121_rows_ex : exists y, wl2_grad wmat wrows = Ok y /\ get y [0; 1] = Fin (15 / 2)%R.
Proof. exact w_rows. Qed.

(** C121. With a map whose grad_conj returns a new array, a session with the arrays in memory is a session of the
    model of C52: x and y never share an array, and post-processing x does not change y. *)
Theorem C121_separate : forall K V (O : KOps K) g gr nn cl (c : cfg K V), (forall v, c_pp c v = cl (nn v)) ->
  forall n s h log, hexec (Some g) gr nn cl c n (s, h) log ->
  vexec (mirror_inner g) (mirror_attr gr) c n (s, deref h (ry h)) log.
Proof. intros K V O g gr nn cl c PP. exact (fresh_sessions (Some g) gr nn cl c PP g eq_refl). Qed.
Print Assumptions C121_separate.

(** C121. With weighted_L2, after at least one step of any session: x is y, clipped, and y itself has been through
    nan_to_num. *)
Theorem C121_shared : forall K V (O : KOps K) gr nn cl (c : cfg K V), (forall v, c_pp c v = cl (nn v)) ->
  forall n s h log, hexec None gr nn cl c n (s, h) log -> n <> 0 ->
  s_x s = map (map cl) (deref h (ry h)) /\ exists y, deref h (ry h) = map (map nn) y.
Proof. intros K V O gr nn cl c PP. exact (wl2_state None gr nn cl c PP eq_refl). Qed.
Print Assumptions C121_shared.
Example C121_shared_ex : exists s h log, hexec None twice nanrep fzclip wcfg 1 (s, h) log /\ s_x s = [[Fin 1000; Fin 1000]]%Z /\
  deref h (ry h) = [[Fin 2006; Fin 2010]]%Z.
Proof. exact w_clip. Qed.
Example C121_shared_nan_ex : exists s h log, hexec None twice nanrep fzclip wcfg 1 (s, h) log /\ s_x s = [[Fin 1000; Fin 1000]]%Z /\
  deref h (ry h) = [[Fin 1000; Fin 1000]]%Z.
Proof. exact w_repaired. Qed.

(** C121. REFUTED: the same of the other maps: a dual point that became NaN stays NaN. *)
Theorem C121_others_repaired_refuted :
  ~ (forall (c : cfg Z (fl Z)) g gr nn cl n s h log, (forall v, c_pp c v = cl (nn v)) -> (forall v, nn v <> NaN) ->
       hexec (Some g) gr nn cl c n (s, h) log -> n <> 0 -> forall m k v, cell (deref h (ry h)) m k = Some v -> v <> NaN).
Proof. exact dual_repaired_refuted. Qed.
Print Assumptions C121_others_repaired_refuted.

(** C121. The move: the dual point is moved by the CBO update, repaired, and is the new particle after clipping. *)
Theorem C121_move : forall K V (O : KOps K) gr nn cl (c : cfg K V), (forall v, c_pp c v = cl (nn v)) ->
  one_consensus_point c -> c_corr c = NoCorr ->
  forall n s h log o s' h', hexec None gr nn cl c n (s, h) log -> perms_valid o s -> hstep None nn cl c o (s, h) = Ok (s', h') ->
  forall k m i v yv, nth_error (s_active s) k = Some m -> cell (s_x s) m i = Some v -> cell (deref h (ry h)) m i = Some yv ->
    exists w, cell (deref h' (ry h')) m i = Some (nn w) /\ cell (s_x s') m i = Some (cl (nn w)) /\
      match last_index i (run_selp c o s m) with
      | None => w = yv
      | Some j => exists cp, own_consensus c o s m cp /\
          w = c_vadd c yv (c_vadd c (c_vscale c (fmul (fopp (s_lamda s)) (s_dt s)) (c_vsub c v cp)) (kick c s v cp (o_z o k j)))
      end.
Proof. intros K V O gr nn cl c PP. exact (wl2_move None gr nn cl c PP eq_refl). Qed.
Print Assumptions C121_move.

(** C121. REFUTED: an update of size zero leaves the particles where they are: in the first step they jump to A x. *)
Theorem C121_zero_update_refuted :
  ~ (forall (c : cfg Z (fl Z)) gr nn cl n s h log o s' h', (forall v, c_pp c v = cl (nn v)) -> one_consensus_point c -> c_corr c = NoCorr ->
       hexec None gr nn cl c n (s, h) log -> perms_valid o s -> s_active s <> [] -> hstep None nn cl c o (s, h) = Ok (s', h') ->
       s_lamda s = Fin 0%Z -> s_sigma s = Fin 0%Z -> s_x s' = map (map (c_pp c)) (s_x s)).
Proof. exact zero_update_refuted. Qed.
Print Assumptions C121_zero_update_refuted.

(** C121. As long as clipping did not separate x from y, a step is exactly a step of CBO, whatever the matrix was. *)
Theorem C121_is_cbo : forall K V (O : KOps K) gr nn cl (c : cfg K V), (forall v, c_pp c v = cl (nn v)) ->
  forall n s h log o s', hexec None gr nn cl c n (s, h) log -> deref h (rx h) = deref h (ry h) ->
  (step c o s = Ok s' <-> exists h', hstep None nn cl c o (s, h) = Ok (s', h')).
Proof. intros K V O gr nn cl c PP. exact (wl2_step_cbo None gr nn cl c PP eq_refl). Qed.
Print Assumptions C121_is_cbo.
Example C121_is_cbo_ex : exists s h log, hexec None twice nanrep fzclip wcfg 1 (s, h) log /\ deref h (rx h) = deref h (ry h) /\
  exists s', step wcfg (worc (Fin 1%Z)) s = Ok s'.
Proof. exact w_equal. Qed.
