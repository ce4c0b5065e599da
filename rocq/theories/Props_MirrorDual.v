(** * C117: the dual points of MirrorCBO carry the state; what is tracked, and what a change of x or y does *)
From Coq Require Import String List Arith Bool ZArith Permutation.
From Verif Require Import Scalar Np State Pdyn Exec HistSpec ExZ MemSpec PdynStep Variant VarExactSpec RVec Cbo MirrorDual MirrorDualSpec MirrorDualFacts ExMirrorDual.
Import ListNotations.
Open Scope string_scope.
Open Scope nat_scope.
Open Scope list_scope.

(** C117. history['x'] has one entry more than history['y'] (the initial positions); apart from it, entry k of both belongs to
    step k * save_int, and the recorded positions are the images of the recorded dual points -- also when x and y were
    resampled or overwritten between the steps. *)
Theorem C117_history : forall K V (O : KOps K) gc gr (c : cfg K V) x0 chk al sg la dt perm0 names save s0 l s y hy,
  is_array (length x0) (shape1 x0) x0 -> 1 <= shape1 x0 -> 1 <= c_bsize c <= shape1 x0 ->
  (forall m, m < length x0 -> Permutation (perm0 m) (seq 0 (shape1 x0))) ->
  1 <= save -> init c x0 chk al sg la dt perm0 (Some names) [] (Some save) = Ok s0 ->
  NoDup names -> (In "drift" names -> ~ In "particle_idx" names) -> In "x" names ->
  msess gc gr c s0 l s y hy ->
  exists hx, hist_get "x" (s_hist s) = Some (HX x0 :: hx) /\ length hx = length hy /\ length hy = (length l + save - 1) / save /\
    forall k a b, nth_error l (k * save) = Some (a, b) ->
      nth_error hx k = Some (HX a) /\ nth_error hy k = Some b /\ a = map (map (fun v => c_pp c (gc v))) b.
Proof. intros K V O. exact mirror_history. Qed.
Print Assumptions C117_history.

Example C117_history_case : exists s0 l s y hy, mdinit = Ok s0 /\ NoDup ["x"; "energy"] /\
  (In "drift" ["x"; "energy"] -> ~ In "particle_idx" ["x"; "energy"]) /\ In "x" ["x"; "energy"] /\ msess mgc mgr mdc s0 l s y hy /\
  l = [([[4; 4]], [[5; 5]]); ([[4; 3]], [[5; 4]]); ([[3; 3]], [[4; 4]])]%Z /\
  hist_get "x" (s_hist s) = Some [HX [[10; 4]]; HX [[4; 4]]; HX [[3; 3]]]%Z /\ hy = [[[5; 5]]; [[4; 4]]]%Z.
Proof. exact ex_history. Qed.
Example C117_history_hypotheses : is_array (length mdx) (shape1 mdx) mdx /\ 1 <= shape1 mdx /\ 1 <= c_bsize mdc <= shape1 mdx /\
  (forall m, m < length mdx -> Permutation (mdp m) (seq 0 (shape1 mdx))).
Proof. exact md_hyps. Qed.

(** C117, refuted: entry k of history['y'] is not the dual of entry k of history['x'], and the two lists have different lengths. *)
Theorem C117_same_index_refuted : exists s0 l s y hy x0 y0, mdinit = Ok s0 /\ msess mgc mgr mdc s0 l s y hy /\
  match hist_get "x" (s_hist s) with Some h => nth_error h 0 = Some (HX x0) /\ length h <> length hy | None => False end /\
  nth_error hy 0 = Some y0 /\ x0 <> map (map (fun v => c_pp mdc (mgc v))) y0.
Proof. exact ex_misaligned. Qed.
Print Assumptions C117_same_index_refuted.

(** C117. After every step all positions are the images of the dual points.  In a terminated run this undoes whatever was
    written to x. *)
Theorem C117_positions : forall K V (O : KOps K) gc gr (c : cfg K V) s0 l s y hy o s' y' hy', constructed c s0 ->
  msess gc gr c s0 l s y hy -> perms_valid o s -> mirror_tstep gc c o ((s, y), hy) = Ok ((s', y'), hy') ->
  s_x s' = map (map (fun v => c_pp c (gc v))) y' /\
  forall m, ~ In m (s_active s) -> nth_error y' m = nth_error y m /\
    nth_error (s_x s') m = option_map (map (fun v => c_pp c (gc v))) (nth_error y m).
Proof. intros K V O. exact dual_only. Qed.
Print Assumptions C117_positions.

(** C117. The next dual point of a selected particle starts from its dual point; the position v, whatever was written there,
    only enters through the drift v - cp (and the consensus point cp of its run). *)
Theorem C117_move : forall K V (O : KOps K) gc gr (c : cfg K V) s0 l s y hy o s' y' hy', one_consensus_point c -> c_corr c = NoCorr ->
  constructed c s0 -> msess gc gr c s0 l s y hy -> perms_valid o s -> mirror_tstep gc c o ((s, y), hy) = Ok ((s', y'), hy') ->
  forall k m i v yv, nth_error (s_active s) k = Some m -> cell (s_x s) m i = Some v -> cell y m i = Some yv ->
    exists yv', cell y' m i = Some yv' /\ cell (s_x s') m i = Some (c_pp c (gc yv')) /\
      match last_index i (run_selp c o s m) with
      | None => yv' = yv
      | Some j => exists cp, own_consensus c o s m cp /\
          yv' = c_vadd c yv (c_vadd c (c_vscale c (fmul (fopp (s_lamda s)) (s_dt s)) (c_vsub c v cp)) (kick c s v cp (o_z o k j)))
      end.
Proof. intros K V O. exact dual_move. Qed.
Print Assumptions C117_move.

Example C117_constructed_case : forall s0, mdinit = Ok s0 -> constructed mdc s0.
Proof. exact md_constructed. Qed.
Example C117_move_case : exists s0 l s y hy, mdinit = Ok s0 /\ msess mgc mgr mdc s0 l s y hy /\ one_consensus_point mdc /\ c_corr mdc = NoCorr /\
  perms_valid (zorc 3 [0; 1]) s /\ s_active s = [0] /\ s_x s = [[104; 105]]%Z /\ y = [[5; 5]]%Z /\
  exists s' y' hy', mirror_tstep mgc mdc (zorc 3 [0; 1]) ((s, y), hy) = Ok ((s', y'), hy') /\ y' = [[5; 4]]%Z /\ s_x s' = [[4; 3]]%Z.
Proof. exact ex_move. Qed.

(** C117. Resampling with the default var_name 'x' adds amp z to the positions of the chosen runs and leaves y alone ... *)
Theorem C117_resample_x : forall K V (O : KOps K) gc gr (c : cfg K V) s0 l s y hy amp z idx s' y', constructed c s0 ->
  msess gc gr c s0 l s y hy -> NoDup idx -> (forall m, In m idx -> m < s_M s) -> mirror_resample c VarX amp z idx (s, y) = Ok (s', y') ->
  y' = y /\ (forall k m i v, nth_error idx k = Some m -> cell (s_x s) m i = Some v -> cell (s_x s') m i = Some (c_vadd c v (c_vscale c amp (z k i)))) /\
  (forall m, ~ In m idx -> nth_error (s_x s') m = nth_error (s_x s) m).
Proof. intros K V O. exact resample_x. Qed.
Print Assumptions C117_resample_x.

(** ... so, refuted, that resampled particles go on from where they were put: here every particle is moved by 100, and one step
    later the positions are what they are without resampling, while a CBO keeps the displacement. *)
Theorem C117_resampling_moves_refuted : exists s0 l s y hy sr yr s1 y1 h1 s2 y2 h2, mdinit = Ok s0 /\ msess mgc mgr mdc s0 l s y hy /\
  mirror_resample mdc VarX (Fin 1%Z) mdz1 [0] (s, y) = Ok (sr, yr) /\ s_x s = [[4; 4]]%Z /\ s_x sr = [[104; 104]]%Z /\
  mirror_tstep mgc mdc (zorc 0 [0; 1]) ((s, y), hy) = Ok ((s1, y1), h1) /\
  mirror_tstep mgc mdc (zorc 0 [0; 1]) ((sr, yr), hy) = Ok ((s2, y2), h2) /\ s_x s2 = s_x s1 /\ y2 = y1 /\
  exists t1 t2, step mdc (zorc 0 [0; 1]) s = Ok t1 /\ step mdc (zorc 0 [0; 1]) sr = Ok t2 /\ s_x t1 = [[4; 4]]%Z /\ s_x t2 = [[104; 104]]%Z.
Proof. exact ex_undone. Qed.
Print Assumptions C117_resampling_moves_refuted.

(** C117. With var_name 'y' the dual points of the chosen runs are moved by amp z; in exact arithmetic this displacement is
    still there, unchanged, after the next step. *)
Theorem C117_resample_y : forall K V (O : KOps K) gc gr (c : cfg K V) s0 l s y hy amp z idx s' y', constructed c s0 ->
  msess gc gr c s0 l s y hy -> NoDup idx -> (forall m, In m idx -> m < s_M s) -> mirror_resample c VarY amp z idx (s, y) = Ok (s', y') ->
  s' = s /\ (forall k m i v, nth_error idx k = Some m -> cell y m i = Some v -> cell y' m i = Some (c_vadd c v (c_vscale c amp (z k i)))) /\
  (forall m, ~ In m idx -> nth_error y' m = nth_error y m).
Proof. intros K V O. exact resample_y. Qed.
Print Assumptions C117_resample_y.

Theorem C117_dual_shift : forall K V (O : KOps K) gc gr (c : cfg K V) s0 l s y hy amp z idx sr yr o s1 y1 h1 s2 y2 h2,
  (forall a b w, c_vadd c (c_vadd c a w) b = c_vadd c (c_vadd c a b) w) ->
  one_consensus_point c -> c_corr c = NoCorr -> constructed c s0 -> msess gc gr c s0 l s y hy -> perms_valid o s ->
  NoDup idx -> (forall m, In m idx -> m < s_M s) -> mirror_resample c VarY amp z idx (s, y) = Ok (sr, yr) ->
  mirror_tstep gc c o ((s, y), hy) = Ok ((s1, y1), h1) -> mirror_tstep gc c o ((sr, yr), hy) = Ok ((s2, y2), h2) ->
  forall k m i v, nth_error idx k = Some m -> cell y1 m i = Some v ->
    cell y2 m i = Some (c_vadd c v (c_vscale c amp (z k i))) /\
    cell (s_x s2) m i = Some (c_pp c (gc (c_vadd c v (c_vscale c amp (z k i))))).
Proof. intros K V O. exact dual_shift. Qed.
Print Assumptions C117_dual_shift.

(** the condition on the additions holds for vectors of floats over the reals, also with infinities and NaN *)
Theorem C117_exact_additions : forall f k pp co b partial cat ks save u v w, let c := cbo_cfg f k pp co b partial cat ks save in
  c_vadd c (c_vadd c u w) v = c_vadd c (c_vadd c u v) w.
Proof. exact cbo_swap. Qed.
Print Assumptions C117_exact_additions.

Example C117_dual_shift_case : exists s0 l s y hy, mdinit = Ok s0 /\ msess mgc mgr mdc s0 l s y hy /\ one_consensus_point mdc /\ c_corr mdc = NoCorr /\
  (forall a b w, c_vadd mdc (c_vadd mdc a w) b = c_vadd mdc (c_vadd mdc a b) w) /\ perms_valid (zorc 3 [0; 1]) s /\ s_M s = 1 /\
  exists sr yr s1 y1 h1 s2 y2 h2, mirror_resample mdc VarY (Fin 1%Z) mdz [0] (s, y) = Ok (sr, yr) /\
    mirror_tstep mgc mdc (zorc 3 [0; 1]) ((s, y), hy) = Ok ((s1, y1), h1) /\
    mirror_tstep mgc mdc (zorc 3 [0; 1]) ((sr, yr), hy) = Ok ((s2, y2), h2) /\ y1 = [[5; 5]]%Z /\ y2 = [[105; 106]]%Z /\ s_x s2 = [[104; 105]]%Z.
Proof. exact ex_shift. Qed.
