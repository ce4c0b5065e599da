(** * The step of CBO acts on each run separately, and never fails *)

From Coq Require Import String List Arith Bool Lia.
From Verif Require Import Scalar Np NpFacts State Pdyn PdynFacts.
Import ListNotations.
Open Scope nat_scope.
Open Scope list_scope.

Section Step.
  Context {K V : Type} {O : KOps K}.
  Notation F := (fl K).
  Notation st := (st K V).
  Notation cfg := (cfg K V).
  Notation orc := (orc V).

  (** ** Well-formed states *)

  Definition trk_keys (t : trk) : list string :=
    match t with
    | TX => ["x"] | TUpd => ["update_norm"] | TEnergy => ["energy"] | TCons => ["consensus"]
    | TDriftMean => ["drift_mean"] | TDrift => ["drift"; "particle_idx"] | TDefault n _ => [n]
    end%string.

  Definition keys_ok (ts : list trk) (h : list (string * list (hval K V))) : Prop :=
    forall t k, In t ts -> In k (trk_keys t) -> exists v, hist_get k h = Some v.

  Record wf (c : cfg) (s : st) : Prop := {
    w_N : 0 < s_N s;
    w_x : rect (s_M s) (s_N s) (s_x s);
    w_e : rect (s_M s) (s_N s) (s_energy s);
    w_al : rect (s_M s) 1 (s_alpha s);
    w_be : length (s_be s) = s_M s;
    w_bp : length (s_bp s) = s_M s;
    w_nfe : length (s_nfe s) = s_M s;
    w_fmin : length (s_fmin s) = s_M s;
    w_ud : length (s_udiff s) = s_M s;
    w_reason : length (s_reason s) = s_M s;
    w_act : incr (s_active s);
    w_actlt : forall m, In m (s_active s) -> m < s_M s;
    w_bs : 1 <= c_bsize c <= s_N s;
    w_ind : c_bsize c <> s_N s ->
            length (s_ind s) = s_M s /\
            (forall k row, nth_error (s_ind s) k = Some row -> length row = shape1 (s_ind s)) /\
            (forall k row j, nth_error (s_ind s) k = Some row -> In j row -> j < s_N s);
    w_cep : match s_cep s with Some p => rect (s_M s) (s_N s) p | None => True end;
    w_save : 1 <= s_save s;
    w_keys : keys_ok (s_tracks s) (s_hist s) }.

  (** the fresh permutations are lists of particle indices of length N *)
  Definition perm_ok (o : orc) (s : st) : Prop :=
    forall m, m < s_M s -> length (o_perm o m) = s_N s /\ forall j, In j (o_perm o m) -> j < s_N s.

  (** ** One run *)

  Record rowst : Type := mkrow {
    r_x : list V; r_e : list F; r_a : list F; r_be : F; r_bp : V; r_nfe : nat;
    r_ud : F; r_fmin : F; r_bce : option F; r_bcp : option V }.

  Definition row_at (s : st) (m : nat) : option rowst :=
    match nth_error (s_x s) m, nth_error (s_energy s) m, nth_error (s_alpha s) m,
          nth_error (s_be s) m, nth_error (s_bp s) m, nth_error (s_nfe s) m,
          nth_error (s_udiff s) m, nth_error (s_fmin s) m with
    | Some x, Some e, Some a, Some be, Some bp, Some n, Some ud, Some fm =>
        Some (mkrow x e a be bp n ud fm (nth_error (s_bce s) m) (nth_error (s_bcp s) m))
    | _, _, _, _, _, _, _, _ => None
    end.

  (** what compute_consensus and the position update do to one active run;
      also returns its consensus and drift rows *)
  Definition run_move (c : cfg) (lamda dt sigma : F) (sl slp : list nat) (z : nat -> V) (r : rowst)
    : res (rowst * (list V * list V)) :=
    match r_a r with
    | [a] =>
        xb <- takeM (r_x r) sl ;;
        let eb := map (c_f c) xb in
        let cp := c_ccrow c eb xb a in
        er <- put1 sl (r_e r) eb ;;
        xp <- takeM (r_x r) slp ;;
        let d := rowop (c_vsub c) xp cp in
        let upd := mapi (fun n v => cbo_update c v lamda dt sigma (c_noise c dt v (z n))) d in
        xr <- put1 slp (r_x r) (map2 (c_vadd c) xp upd) ;;
        Ok (mkrow xr er (r_a r) (r_be r) (r_bp r) (r_nfe r + length sl) (r_ud r) (r_fmin r) (r_bce r) (r_bcp r),
            (cp, d))
    | _ => Err ShapeError
    end.

  (** what post_step does to one run; [xo]: its old positions *)
  Definition run_post (c : cfg) (xo : list V) (r : rowst) : res rowst :=
    let x1 := map (c_pp c) (r_x r) in
    am <- argmin (r_e r) ;;
    p <- take1 xo (fst am) ;;
    e <- take1 (r_e r) (fst am) ;;
    let b := fltb e (r_be r) in
    Ok (mkrow x1 (r_e r) (r_a r) (if b then e else r_be r) (if b then p else r_bp r) (r_nfe r)
          (c_norm c (map2 (c_vsub c) x1 xo)) (snd am) (Some e) (Some p)).

  (** the index row served to run [m] by the batch machine *)
  Definition ind_next (c : cfg) (o : orc) (s : st) (m : nat) : list nat :=
    if shape1 (s_ind s) <? c_bsize c then
      (if c_concat c then nth m (s_ind s) [] ++ o_perm o m else o_perm o m)
    else nth m (s_ind s) [].

  Definition run_sel (c : cfg) (o : orc) (s : st) (m : nat) : list nat :=
    if c_bsize c =? s_N s then seq 0 (s_N s) else firstn (c_bsize c) (ind_next c o s m).
  Definition run_selp (c : cfg) (o : orc) (s : st) (m : nat) : list nat :=
    if c_bsize c =? s_N s then seq 0 (s_N s)
    else if c_partial c then firstn (c_bsize c) (ind_next c o s m) else seq 0 (s_N s).

  (** ** pre_step *)

  Lemma perm_rows : forall (o : orc) n i k, nth_error (map (o_perm o) (seq i n)) k =
    if k <? n then Some (o_perm o (i + k)) else None.
  Proof.
    intros. rewrite nth_error_map, nth_error_seq. destruct (k <? n); reflexivity.
  Qed.

  Lemma ind_rows : forall (c : cfg) (o : orc) s, wf c s -> perm_ok o s -> c_bsize c <> s_N s ->
    let ind := if shape1 (s_ind s) <? c_bsize c then
                 (if c_concat c then map2 (fun a b => a ++ b) (s_ind s) (map (o_perm o) (seq 0 (s_M s)))
                  else map (o_perm o) (seq 0 (s_M s)))
               else s_ind s in
    length ind = s_M s /\
    forall m, m < s_M s -> nth_error ind m = Some (ind_next c o s m) /\
      length (ind_next c o s m) = (if shape1 (s_ind s) <? c_bsize c then
                                     (if c_concat c then shape1 (s_ind s) + s_N s else s_N s)
                                   else shape1 (s_ind s)) /\
      (forall j, In j (ind_next c o s m) -> j < s_N s).
  Proof.
    intros c o s W P Hb ind. destruct (w_ind _ _ W Hb) as (Hl & Hw & Hlt).
    subst ind. unfold ind_next. destruct (shape1 (s_ind s) <? c_bsize c) eqn:E.
    - destruct (c_concat c).
      + split. { rewrite map2_length, map_length, seq_length. lia. }
        intros m Hm. rewrite map2_nth, perm_rows. cbn [plus].
        replace (m <? s_M s) with true by (symmetry; apply Nat.ltb_lt; auto).
        rewrite <- Hl in Hm. destruct (nth_error_lt_Some _ _ _ Hm) as [r Er]. rewrite Hl in Hm.
        rewrite Er, (nth_error_nth _ _ _ Er). destruct (P m Hm) as [P1 P2].
        split; auto. rewrite app_length, P1, (Hw _ _ Er). split; auto.
        intros j Hj. apply in_app_or in Hj. destruct Hj; eauto.
      + split. { rewrite map_length, seq_length. auto. }
        intros m Hm. rewrite perm_rows. cbn [plus].
        replace (m <? s_M s) with true by (symmetry; apply Nat.ltb_lt; auto).
        destruct (P m Hm) as [P1 P2]. auto.
    - split; auto. intros m Hm. rewrite <- Hl in Hm. destruct (nth_error_lt_Some _ _ _ Hm) as [r Er].
      rewrite Er, (nth_error_nth _ _ _ Er). split; auto. split; eauto.
  Qed.

  Lemma ind_next_len : forall (c : cfg) (o : orc) s m, wf c s -> perm_ok o s -> c_bsize c <> s_N s -> m < s_M s ->
    c_bsize c <= length (ind_next c o s m).
  Proof.
    intros. destruct (ind_rows c o s H H0 H1) as [_ Hi]. destruct (Hi m H2) as (_ & Hl & _).
    rewrite Hl. pose proof (w_bs _ _ H).
    destruct (Nat.ltb_spec (shape1 (s_ind s)) (c_bsize c)); destruct (c_concat c); lia.
  Qed.

  Lemma pre_step_char : forall (c : cfg) (o : orc) s, wf c s -> perm_ok o s ->
    exists ci pi ind,
      pre_step c o s = Ok (set_pidx pi (set_cidx ci (set_ind ind (set_xold (Some (s_x s)) s)))) /\
      gidx (s_active s) (s_M s) (s_N s) ci /\ gidx (s_active s) (s_M s) (s_N s) pi /\
      (forall k m, nth_error (s_active s) k = Some m ->
         sel ci k (s_N s) = run_sel c o s m /\ sel pi k (s_N s) = run_selp c o s m) /\
      (c_bsize c = s_N s -> ind = s_ind s) /\
      (c_bsize c <> s_N s -> length ind = s_M s /\
         forall m, m < s_M s -> nth_error ind m = Some (skipn (c_bsize c) (ind_next c o s m))).
  Proof.
    intros c o s W P. unfold pre_step, set_batch_idx. sst.
    destruct (Nat.eqb_spec (c_bsize c) (s_N s)) as [Eb|Eb].
    - unfold set_batch_idx_unbatched. sst.
      destruct (Nat.eqb_spec (length (s_active s)) (s_M s)) as [Ea|Ea].
      + exists IAll, IAll, (s_ind s). split. { destruct s; reflexivity. }
        assert (s_active s = seq 0 (s_M s)) by (apply incr_full; auto; apply W).
        split; [auto|]. split; [auto|]. split; [|split; [auto|congruence]].
        intros. unfold run_sel, run_selp. rewrite Eb, Nat.eqb_refl. auto.
      + exists (IRuns (s_active s)), (IRuns (s_active s)), (s_ind s). split. { destruct s; reflexivity. }
        split; [reflexivity|]. split; [reflexivity|]. split; [|split; [auto|congruence]].
        intros. unfold run_sel, run_selp. rewrite Eb, Nat.eqb_refl. auto.
    - unfold set_batch_idx_batched. sst. pose proof (ind_rows c o s W P Eb) as [Hl Hr].
      set (ind := if shape1 (s_ind s) <? c_bsize c then _ else _) in *. cbv zeta.
      destruct (takeM_ok _ (map (firstn (c_bsize c)) ind) (s_active s)) as [bs Hbs].
      { intros m Hm. rewrite map_length, Hl. apply W; auto. }
      rewrite Hbs. cbn [bind].
      assert (Hbk : forall k m, nth_error (s_active s) k = Some m ->
                      nth_error bs k = Some (firstn (c_bsize c) (ind_next c o s m))).
      { intros k m Hk. erewrite takeM_nth; eauto. rewrite nth_error_map.
        assert (m < s_M s) by (apply W; eapply nth_error_In; eauto).
        destruct (Hr m H) as (E1 & _ & _). rewrite E1. reflexivity. }
      pose proof (takeM_length _ _ _ _ Hbs) as Hlb.
      assert (Hg : gidx (s_active s) (s_M s) (s_N s) (IBatch (s_active s) bs)).
      { cbn. split; auto. split; auto. intros k b Hk j Hj.
        assert (k < length (s_active s)) by (rewrite <- Hlb; eapply nth_error_lt; eauto).
        destruct (nth_error_lt_Some _ _ _ H) as [m Hm].
        rewrite (Hbk _ _ Hm) in Hk. inversion Hk; subst b.
        assert (Hmm : m < s_M s) by (apply W; eapply nth_error_In; eauto).
        destruct (Hr m Hmm) as (_ & _ & Hlt). apply Hlt.
        rewrite <- (firstn_skipn (c_bsize c)). apply in_or_app; auto. }
      exists (IBatch (s_active s) bs), (if c_partial c then IBatch (s_active s) bs else IRuns (s_active s)),
             (map (skipn (c_bsize c)) ind).
      split. { destruct s; reflexivity. }
      split; [auto|]. split. { destruct (c_partial c); auto. reflexivity. }
      split; [|split].
      + intros k m Hk. unfold run_sel, run_selp. destruct (Nat.eqb_spec (c_bsize c) (s_N s)); [tauto|].
        cbn [sel]. rewrite (nth_error_nth _ _ _ (Hbk _ _ Hk)). split; auto.
        destruct (c_partial c); cbn [sel]; auto. rewrite (nth_error_nth _ _ _ (Hbk _ _ Hk)). auto.
      + tauto.
      + intros _. split. { rewrite map_length; auto. }
        intros m Hm. rewrite nth_error_map. destruct (Hr m Hm) as (E1 & _ & _). rewrite E1. reflexivity.
  Qed.

  (** ** cbo_step *)

  Definition cc1 (c : cfg) : Prop := forall e x a, length (c_ccrow c e x a) = 1.

  Lemma map_rect_nth : forall A B (f : A -> B) (X : arr A) k,
    nth_error (map (map f) X) k = option_map (map f) (nth_error X k).
  Proof. intros. apply nth_error_map. Qed.

  Lemma cc_call_rows : forall (c : cfg) e xs al,
    length e = length xs -> length al = length xs ->
    (forall k er xr, nth_error e k = Some er -> nth_error xs k = Some xr -> length er = length xr) ->
    (forall k ar, nth_error al k = Some ar -> length ar = 1) ->
    exists cp, cc_call c e xs al = Ok cp /\ length cp = length xs /\
      forall k er xr a, nth_error e k = Some er -> nth_error xs k = Some xr -> nth_error al k = Some [a] ->
        nth_error cp k = Some (c_ccrow c er xr a).
  Proof.
    intros c e xs al H1 H2 H3 H4. unfold cc_call.
    rewrite bpairs_same by congruence. cbn [bind].
    rewrite bpairs_same. 2: rewrite combine_length; lia. cbn [bind].
    assert (Hrow : forall k p, nth_error (combine (combine e al) xs) k = Some p ->
      exists er a xr, p = ((er, [a]), xr) /\ nth_error e k = Some er /\ nth_error al k = Some [a] /\
        nth_error xs k = Some xr /\ length er = length xr).
    { intros k [[er ar] xr] Hk. rewrite !nth_error_combine in Hk.
      destruct (nth_error e k) eqn:E1; try discriminate.
      destruct (nth_error al k) eqn:E2; try discriminate.
      destruct (nth_error xs k) eqn:E3; try discriminate.
      inversion Hk; subst. pose proof (H4 _ _ E2). destruct ar as [|a [|]]; try discriminate.
      exists er, a, xr. repeat split; eauto. }
    match goal with |- context [mapM ?f ?l] => destruct (mapM_ok _ _ f l) as [cp Hcp] end.
    { intros p Hin. apply In_nth_error in Hin. destruct Hin as [k Hk].
      destruct (Hrow _ _ Hk) as (er & a & xr & -> & _ & _ & _ & Hl). rewrite Hl, Nat.eqb_refl. eauto. }
    exists cp. split; [exact Hcp|]. split.
    { rewrite (mapM_length _ _ _ _ _ Hcp), !combine_length. lia. }
    intros k er xr a E1 E2 E3.
    destruct (mapM_nth _ _ _ _ _ k ((er, [a]), xr) Hcp) as (b & Eb & Ek).
    { rewrite !nth_error_combine, E1, E2, E3. auto. }
    rewrite (H3 _ _ _ E1 E2), Nat.eqb_refl in Eb. congruence.
  Qed.

  Lemma add_at_nth : forall act k l m, nth_error (add_at act k l) m =
    option_map (fun n => if existsb (Nat.eqb m) act then n + k else n) (nth_error l m).
  Proof. intros. unfold add_at. apply mapi_nth. Qed.

  Lemma existsb_eqb : forall m l, existsb (Nat.eqb m) l = true <-> In m l.
  Proof.
    intros. rewrite existsb_exists. split.
    - intros (x & H & E). apply Nat.eqb_eq in E. subst; auto.
    - intros. exists m. rewrite Nat.eqb_refl. auto.
  Qed.

  Lemma rect_takeM : forall A M N (X : arr A) act Y, rect M N X -> takeM X act = Ok Y ->
    rect (length act) N Y.
  Proof.
    intros A M N X act Y [H1 H2] H. split. { eapply takeM_length; eauto. }
    intros k row Hk. assert (k < length act). { rewrite <- (takeM_length _ _ _ _ H). eapply nth_error_lt; eauto. }
    destruct (nth_error_lt_Some _ _ _ H0) as [m Hm]. erewrite takeM_nth in Hk; eauto.
  Qed.

  (** saving the evaluation points *)
  Lemma save_points_char : forall (c : cfg) (s : st), s_cep s = s_cep s ->
    gidx (s_active s) (s_M s) (s_N s) (s_cidx s) -> NoDup (s_active s) ->
    (forall m, In m (s_active s) -> m < s_M s) ->
    rect (s_M s) (s_N s) (s_x s) ->
    match s_cep s with Some p => rect (s_M s) (s_N s) p | None => True end ->
    exists cep', maybe_save_points c s = Ok (set_cep cep' s) /\
      match cep' with Some p => rect (s_M s) (s_N s) p | None => True end /\
      (c_savepts c = false -> cep' = s_cep s) /\
      (c_savepts c = true -> s_cep s = None -> cep' = Some (s_x s)) /\
      (c_savepts c = true -> forall p, s_cep s = Some p -> exists p', cep' = Some p' /\
         (forall k m xr pr, nth_error (s_active s) k = Some m -> nth_error (s_x s) m = Some xr ->
            nth_error p m = Some pr -> exists xb pr', takeM xr (sel (s_cidx s) k (s_N s)) = Ok xb /\
              put1 (sel (s_cidx s) k (s_N s)) pr xb = Ok pr' /\ nth_error p' m = Some pr') /\
         (forall m, ~ In m (s_active s) -> nth_error p' m = nth_error p m)).
  Proof.
    intros c s _ Hg Hnd Hlt Hx Hcep. unfold maybe_save_points. destruct (c_savepts c).
    - destruct (s_cep s) as [p|] eqn:Ec.
      + destruct (gather_rows _ _ _ _ _ _ Hg Hlt Hx) as (xs & Hxs & Hlx & Hgx). rewrite Hxs. cbn [bind].
        destruct (scatter_rows _ _ _ _ _ p xs Hg Hnd Hlt Hcep Hlx) as (p' & Hp & Hr & Ha & Hn).
        { intros k yr Hk. assert (Hka : k < length (s_active s)) by (rewrite <- Hlx; eapply nth_error_lt; eauto).
          destruct (nth_error_lt_Some _ _ _ Hka) as [m Hm].
          assert (Hm2 : m < s_M s) by (apply Hlt; eapply nth_error_In; eauto).
          rewrite <- (proj1 Hx) in Hm2. destruct (nth_error_lt_Some _ _ _ Hm2) as [xr Exr].
          destruct (Hgx _ _ _ Hm Exr) as (yr' & E1 & E2). rewrite E1 in Hk. inversion Hk; subst.
          eapply takeM_length; eauto. }
        rewrite Hp. cbn [bind]. exists (Some p'). split; [auto|]. split; [auto|].
        split; [discriminate|]. split; [discriminate|].
        intros _ q Eq. inversion Eq; subst q. exists p'. split; [auto|]. split; [|auto].
        intros k m xr pr Hk Exr Epr. destruct (Hgx _ _ _ Hk Exr) as (yr & E1 & E2).
        destruct (Ha _ _ _ _ Hk Epr E1) as (row' & E3 & E4). exists yr, row'. auto.
      + exists (Some (s_x s)). split; [auto|]. split; [auto|]. split; [discriminate|].
        split; [auto|]. intros _ p E. discriminate.
    - exists (s_cep s). split. { destruct s; auto. } split; [auto|]. split; [auto|].
      split; discriminate.
  Qed.

  Lemma compute_consensus_char : forall (c : cfg) (s : st),
    gidx (s_active s) (s_M s) (s_N s) (s_cidx s) -> NoDup (s_active s) ->
    (forall m, In m (s_active s) -> m < s_M s) ->
    rect (s_M s) (s_N s) (s_x s) -> rect (s_M s) (s_N s) (s_energy s) -> rect (s_M s) 1 (s_alpha s) ->
    (forall k k', k < length (s_active s) -> k' < length (s_active s) ->
        length (sel (s_cidx s) k (s_N s)) = length (sel (s_cidx s) k' (s_N s))) ->
    match s_cep s with Some p => rect (s_M s) (s_N s) p | None => True end ->
    exists cep' en cp nb xs,
      compute_consensus c s =
        Ok (set_energy en (set_cons (Some cp) (set_fcalls (s_fcalls s + npoints xs)
             (set_nfe (add_at (s_active s) nb (s_nfe s)) (set_cep cep' s))))) /\
      gather (s_cidx s) (s_x s) = Ok xs /\
      maybe_save_points c s = Ok (set_cep cep' s) /\
      rect (s_M s) (s_N s) en /\
      match cep' with Some p => rect (s_M s) (s_N s) p | None => True end /\
      length cp = length (s_active s) /\
      (forall k, k < length (s_active s) -> nb = length (sel (s_cidx s) k (s_N s))) /\
      (forall k m xr er a, nth_error (s_active s) k = Some m ->
         nth_error (s_x s) m = Some xr -> nth_error (s_energy s) m = Some er ->
         nth_error (s_alpha s) m = Some [a] ->
         exists xb er', takeM xr (sel (s_cidx s) k (s_N s)) = Ok xb /\
           put1 (sel (s_cidx s) k (s_N s)) er (map (c_f c) xb) = Ok er' /\
           nth_error en m = Some er' /\
           nth_error xs k = Some xb /\
           nth_error cp k = Some (c_ccrow c (map (c_f c) xb) xb a)) /\
      (forall m, ~ In m (s_active s) -> nth_error en m = nth_error (s_energy s) m).
  Proof.
    intros c s Hg Hnd Hlt Hx He Hal Heq Hcep. unfold compute_consensus.
    destruct (save_points_char c s eq_refl Hg Hnd Hlt Hx Hcep) as (cep' & Hsp & Hcep' & _).
    rewrite Hsp. cbn [bind]. sst.
    destruct (gather_rows _ _ _ _ _ _ Hg Hlt Hx) as (xs & Hxs & Hlx & Hgx). rewrite Hxs. cbn [bind].
    unfold eval_f. sst. cbv zeta beta. sst.
    destruct (takeM_ok _ (s_alpha s) (s_active s)) as [al Hal2].
    { intros m Hm. rewrite (proj1 Hal). auto. }
    rewrite Hal2. cbn [bind].
    pose proof (takeM_length _ _ _ _ Hal2) as Hll.
    pose proof (rect_takeM _ _ _ _ _ _ Hal Hal2) as [_ Hal1].
    assert (Hxk : forall k xb, nth_error xs k = Some xb -> exists m xr, nth_error (s_active s) k = Some m /\
                nth_error (s_x s) m = Some xr /\ takeM xr (sel (s_cidx s) k (s_N s)) = Ok xb).
    { intros k xb Hk. assert (Hka : k < length (s_active s)) by (rewrite <- Hlx; eapply nth_error_lt; eauto).
      destruct (nth_error_lt_Some _ _ _ Hka) as [m Hm].
      assert (Hm2 : m < s_M s) by (apply Hlt; eapply nth_error_In; eauto).
      rewrite <- (proj1 Hx) in Hm2. destruct (nth_error_lt_Some _ _ _ Hm2) as [xr Exr].
      exists m, xr. split; auto. split; auto.
      destruct (Hgx _ _ _ Hm Exr) as (yr & E1 & E2). congruence. }
    destruct (cc_call_rows c (map (map (c_f c)) xs) xs al) as (cp & Hcp & Hlc & Hck).
    { apply map_length. } { congruence. }
    { intros k er xr E1 E2. rewrite map_rect_nth, E2 in E1. cbn in E1. inversion E1. apply map_length. }
    { auto. }
    rewrite Hcp. cbn [bind].
    destruct (scatter_rows _ _ _ _ _ (s_energy s) (map (map (c_f c)) xs) Hg Hnd Hlt He) as (en & Hen & Hr & Ha & Hn).
    { rewrite map_length. auto. }
    { intros k yr Hk. rewrite map_rect_nth in Hk. destruct (nth_error xs k) eqn:E; cbn in Hk; inversion Hk.
      rewrite map_length. destruct (Hxk _ _ E) as (m & xr & _ & _ & E3). eapply takeM_length; eauto. }
    rewrite Hen. cbn [bind].
    exists cep', en, cp, (shape1 xs), xs. split. { destruct s; reflexivity. }
    split; [reflexivity|]. split; [auto|]. split; [auto|]. split; [auto|]. split; [congruence|]. split; [|split].
    - intros k Hk. destruct xs as [|x0 xs'] eqn:Exs.
      { cbn in Hlx. lia. }
      cbn [shape1]. destruct (Hxk 0 x0 eq_refl) as (m & xr & E1 & E2 & E3).
      rewrite (takeM_length _ _ _ _ E3). apply Heq; auto. eapply nth_error_lt; eauto.
    - intros k m xr er a Hk Exr Eer Ea.
      destruct (Hgx _ _ _ Hk Exr) as (xb & E1 & E2).
      destruct (Ha k m er (map (c_f c) xb) Hk Eer) as (er' & E3 & E4).
      { rewrite map_rect_nth, E1. auto. }
      exists xb, er'. repeat split; auto.
      apply Hck. { rewrite map_rect_nth, E1; auto. } { auto. }
      erewrite takeM_nth; eauto.
    - auto.
  Qed.

  (** position update for the drift [d], as in cbo_step *)
  Lemma update_char : forall (c : cfg) (o : orc) act M N pi (x d xp : arr V) lamda dt sigma,
    gidx act M N pi -> NoDup act -> (forall m, In m act -> m < M) -> rect M N x ->
    gather pi x = Ok xp -> length d = length act ->
    (forall k r xr, nth_error d k = Some r -> nth_error xp k = Some xr -> length r = length xr) ->
    let upd := mapi (fun k row => mapi (fun n v =>
                 cbo_update c v lamda dt sigma (c_noise c dt v (o_z o k n))) row) d in
    exists xp' x', iop2 (c_vadd c) xp upd = Ok xp' /\ scatter pi x xp' = Ok x' /\
      rect M N x' /\
      (forall k m xr dr, nth_error act k = Some m -> nth_error x m = Some xr -> nth_error d k = Some dr ->
         exists xpr xr', takeM xr (sel pi k N) = Ok xpr /\ nth_error xp k = Some xpr /\
           put1 (sel pi k N) xr (map2 (c_vadd c) xpr (mapi (fun n v =>
                 cbo_update c v lamda dt sigma (c_noise c dt v (o_z o k n))) dr)) = Ok xr' /\
           nth_error x' m = Some xr') /\
      (forall m, ~ In m act -> nth_error x' m = nth_error x m).
  Proof.
    intros c o act M N pi x d xp lamda dt sigma Hg Hnd Hlt Hx Hgath Hld Hrow upd.
    destruct (gather_rows _ _ _ _ _ _ Hg Hlt Hx) as (xs & Hxs & Hlx & Hgx).
    rewrite Hgath in Hxs. inversion Hxs; subst xs. clear Hxs.
    assert (Hlu : length upd = length d) by apply mapi_length.
    assert (Hupd : forall k r, nth_error d k = Some r -> nth_error upd k = Some (mapi (fun n v =>
                 cbo_update c v lamda dt sigma (c_noise c dt v (o_z o k n))) r)).
    { intros k r Hk. unfold upd. rewrite mapi_nth, Hk. reflexivity. }
    assert (Hiop : iop2 (c_vadd c) xp upd = Ok (map2 (map2 (c_vadd c)) xp upd)).
    { apply iop2_same. congruence. intros k xr y E1 E2. unfold upd in E2. rewrite mapi_nth in E2.
      destruct (nth_error d k) eqn:E3; cbn in E2; inversion E2. rewrite mapi_length. eauto. }
    exists (map2 (map2 (c_vadd c)) xp upd).
    destruct (scatter_rows _ _ _ _ _ x (map2 (map2 (c_vadd c)) xp upd) Hg Hnd Hlt Hx) as (x' & Hx' & Hr & Ha & Hn).
    { rewrite map2_length. lia. }
    { intros k yr Hk. rewrite map2_nth in Hk.
      destruct (nth_error xp k) eqn:E1; try discriminate.
      destruct (nth_error upd k) eqn:E2; try discriminate. inversion Hk.
      rewrite map2_length. unfold upd in E2. rewrite mapi_nth in E2.
      destruct (nth_error d k) eqn:E3; cbn in E2; inversion E2. rewrite mapi_length.
      rewrite (Hrow _ _ _ E3 E1).
      assert (Hka : k < length act) by (rewrite <- Hlx; eapply nth_error_lt; eauto).
      destruct (nth_error_lt_Some _ _ _ Hka) as [m Hm].
      assert (Hm2 : m < M) by (apply Hlt; eapply nth_error_In; eauto).
      rewrite <- (proj1 Hx) in Hm2. destruct (nth_error_lt_Some _ _ _ Hm2) as [xr Exr].
      destruct (Hgx _ _ _ Hm Exr) as (yr' & E4 & E5). rewrite E1 in E4. inversion E4; subst.
      rewrite (takeM_length _ _ _ _ E5). lia. }
    exists x'. split; [auto|]. split; [auto|]. split; [auto|]. split; [|auto].
    intros k m xr dr Hk Exr Edr. destruct (Hgx _ _ _ Hk Exr) as (xpr & E1 & E2).
    destruct (Ha k m xr (map2 (c_vadd c) xpr (mapi (fun n v =>
                 cbo_update c v lamda dt sigma (c_noise c dt v (o_z o k n))) dr)) Hk Exr) as (xr' & E3 & E4).
    { rewrite map2_nth, E1, (Hupd _ _ Edr). auto. }
    exists xpr, xr'. auto.
  Qed.

  Lemma run_sel_length : forall (c : cfg) (o : orc) s m, wf c s -> perm_ok o s -> m < s_M s ->
    length (run_sel c o s m) = c_bsize c.
  Proof.
    intros. unfold run_sel. destruct (Nat.eqb_spec (c_bsize c) (s_N s)).
    - rewrite seq_length; auto.
    - rewrite firstn_length. pose proof (ind_next_len c o s m H H0 n H1). lia.
  Qed.

  Definition post_frame (s s' : st) : Prop :=
    s_M s' = s_M s /\ s_N s' = s_N s /\ s_alpha s' = s_alpha s /\ s_sigma s' = s_sigma s /\
    s_lamda s' = s_lamda s /\ s_dt s' = s_dt s /\ s_active s' = s_active s /\ s_reason s' = s_reason s /\
    s_save s' = s_save s.

  (** ** tracking *)
  Lemma hist_get_set : forall k k' v (h : list (string * list (hval K V))),
    hist_get k (hist_set k' v h) = if String.eqb k k' then Some v else hist_get k h.
  Proof.
    induction h as [|[k0 v0] h]; cbn.
    - destruct (String.eqb_spec k k'); auto.
    - destruct (String.eqb_spec k' k0); cbn.
      + subst. destruct (String.eqb_spec k k0); auto.
      + rewrite IHh. destruct (String.eqb_spec k k0); destruct (String.eqb_spec k k'); subst; auto; congruence.
  Qed.

  Lemma hist_append_ok : forall k v (s : st) l, hist_get k (s_hist s) = Some l ->
    hist_append k v s = Ok (set_hist (hist_set k (l ++ [v]) (s_hist s)) s).
  Proof. intros. unfold hist_append. rewrite H. auto. Qed.

  Definition has_keys (s : st) (ks : list string) : Prop :=
    forall k, In k ks -> exists v, hist_get k (s_hist s) = Some v.

  Lemma trk_update_ok : forall (c : cfg) t (s : st), has_keys s (trk_keys t) -> s_drift s <> None ->
    exists t' h, trk_update c t s = Ok (t', set_hist h s) /\ trk_keys t' = trk_keys t /\
      forall k, (exists v, hist_get k (s_hist s) = Some v) -> exists v, hist_get k h = Some v.
  Proof.
    intros c t s Hk Hd.
    assert (Hset : forall k' v k, (exists w, hist_get k (s_hist s) = Some w) ->
               exists w, hist_get k (hist_set k' v (s_hist s)) = Some w).
    { intros. rewrite hist_get_set. destruct (String.eqb k k'); eauto. }
    destruct t; cbn [trk_update].
    - destruct (Hk "x"%string) as [l E]; [cbn; auto|]. rewrite (hist_append_ok _ _ _ _ E). cbn [bind]. eauto 6.
    - destruct (Hk "update_norm"%string) as [l E]; [cbn; auto|]. rewrite (hist_append_ok _ _ _ _ E). cbn [bind]. eauto 6.
    - destruct (Hk "energy"%string) as [l E]; [cbn; auto|]. rewrite (hist_append_ok _ _ _ _ E). cbn [bind]. eauto 6.
    - destruct (Hk "consensus"%string) as [l E]; [cbn; auto|]. rewrite (hist_append_ok _ _ _ _ E). cbn [bind]. eauto 6.
    - destruct (s_drift s); [|congruence].
      destruct (Hk "drift_mean"%string) as [l E]; [cbn; auto|]. rewrite (hist_append_ok _ _ _ _ E). cbn [bind]. eauto 6.
    - destruct (Hk "drift"%string) as [l E]; [cbn; auto|]. rewrite (hist_append_ok _ _ _ _ E). cbn [bind].
      destruct (Hk "particle_idx"%string) as [l2 E2]; [cbn; auto|].
      rewrite (hist_append_ok _ _ _ l2).
      + cbn [bind]. sst. eexists _, _. split; [destruct s; reflexivity|]. split; [auto|].
        intros k Hkk. rewrite hist_get_set. destruct (String.eqb k "particle_idx"); eauto.
      + sst. rewrite hist_get_set. auto.
    - destruct tracking.
      + destruct (attr_of name s).
        * destruct (Hk name) as [l E]; [cbn; auto|]. rewrite (hist_append_ok _ _ _ _ E). cbn [bind]. eauto 6.
        * exists (TDefault name false), (s_hist s). split; [destruct s; auto|]. auto.
      + exists (TDefault name false), (s_hist s). split; [destruct s; auto|]. auto.
  Qed.

  Lemma trks_update_ok : forall (c : cfg) ts (s : st), (forall t, In t ts -> has_keys s (trk_keys t)) -> s_drift s <> None ->
    exists ts' h, trks_update c ts s = Ok (ts', set_hist h s) /\ map trk_keys ts' = map trk_keys ts /\
      forall k, (exists v, hist_get k (s_hist s) = Some v) -> exists v, hist_get k h = Some v.
  Proof.
    induction ts; intros s Hk Hd; cbn [trks_update].
    - exists [], (s_hist s). split; [destruct s; auto|]. auto.
    - destruct (trk_update_ok c a s) as (t' & h & E & Et & Hh); auto. { apply Hk; cbn; auto. }
      rewrite E. cbn [bind snd fst].
      destruct (IHts (set_hist h s)) as (ts' & h' & E' & Et' & Hh').
      { intros t Ht k Hkk. sst. apply Hh. apply (Hk t); cbn; auto. }
      { sst. auto. }
      rewrite E'. cbn [bind snd fst]. exists (t' :: ts'), h'. split; [destruct s; auto|].
      split. { cbn. congruence. } sstall. eauto.
  Qed.

  Lemma track_ok : forall (c : cfg) (s : st), 1 <= s_save s -> keys_ok (s_tracks s) (s_hist s) -> s_drift s <> None ->
    exists ti ts h, track c s = Ok (set_trackit ti (set_tracks ts (set_hist h s))) /\ keys_ok ts h.
  Proof.
    intros c s Hs Hk Hd. unfold track. destruct (s_save s) eqn:E; [lia|].
    destruct (s_it s mod S n =? 0).
    - destruct (trks_update_ok c (s_tracks s) s) as (ts & h & E1 & E2 & E3); auto.
      { intros t Ht k Hkk. eapply Hk; eauto. }
      rewrite E1. cbn [bind fst snd]. exists (S (s_trackit s)), ts, h. split; [destruct s; auto|].
      intros t k Ht Hkk. apply E3.
      assert (Hin : In (trk_keys t) (map trk_keys ts)) by (apply in_map; auto).
      rewrite E2 in Hin. apply in_map_iff in Hin. destruct Hin as (t0 & Et & Hin).
      apply (Hk t0); auto. rewrite Et; auto.
    - exists (s_trackit s), (s_tracks s), (s_hist s). split; [destruct s; auto|]. auto.
  Qed.

  (** ** argmin *)
  Lemma argmin_from_nth : forall l i bi (bv : F) pre,
    length pre = i -> nth_error pre bi = Some bv ->
    nth_error (pre ++ l) (fst (argmin_from i bi bv l)) = Some (snd (argmin_from i bi bv l)).
  Proof.
    induction l; intros; cbn [argmin_from].
    - cbn. rewrite app_nil_r. auto.
    - destruct (is_nan bv). { cbn. rewrite nth_error_app1; auto. eapply nth_error_lt; eauto. }
      destruct (is_nan a). { cbn. rewrite nth_error_app2 by lia. rewrite H, Nat.sub_diag. auto. }
      change (pre ++ a :: l) with (pre ++ ([a] ++ l)). rewrite app_assoc.
      destruct (fltb a bv); apply IHl.
      + rewrite app_length; cbn; lia.
      + rewrite nth_error_app2 by lia. rewrite H, Nat.sub_diag. auto.
      + rewrite app_length; cbn; lia.
      + rewrite nth_error_app1; auto. eapply nth_error_lt; eauto.
  Qed.
  Lemma argmin_nth : forall (l : list F) j v, argmin l = Ok (j, v) -> nth_error l j = Some v.
  Proof.
    intros. destruct l; try discriminate. cbn [argmin] in H. inversion H.
    pose proof (argmin_from_nth l 1 0 f [f] eq_refl eq_refl) as Hp. rewrite H1 in Hp. exact Hp.
  Qed.
  Lemma argmin_ok : forall (l : list F), 0 < length l -> exists j v, argmin l = Ok (j, v).
  Proof.
    intros. destruct l; [cbn in H; lia|]. cbn [argmin]. destruct (argmin_from 1 0 f l); eauto.
  Qed.

  Lemma select_nth : forall A b (new old : list A) k,
    length b = length old -> length new = length old ->
    nth_error (select b new old) k =
      match nth_error b k, nth_error new k, nth_error old k with
      | Some true, Some n, _ => Some n
      | Some false, _, Some o => Some o
      | _, _, _ => None
      end.
  Proof.
    induction b; destruct new, old; intros; cbn in *; try discriminate.
    - destruct k; reflexivity.
    - destruct k; destruct a; cbn; auto; apply IHb; lia.
  Qed.
  Lemma select_length : forall A b (new old : list A), length b = length old -> length new = length old ->
    length (select b new old) = length old.
  Proof.
    induction b; destruct new, old; intros; cbn in *; try discriminate; auto.
    destruct a; cbn; f_equal; apply IHb; lia.
  Qed.

  (** ** post_step on all runs *)
  Lemma post_step_char : forall (c : cfg) (s : st) xo,
    s_xold s = Some xo -> rect (s_M s) (s_N s) xo -> rect (s_M s) (s_N s) (s_x s) ->
    rect (s_M s) (s_N s) (s_energy s) -> 0 < s_N s ->
    length (s_be s) = s_M s -> length (s_bp s) = s_M s ->
    1 <= s_save s -> keys_ok (s_tracks s) (s_hist s) -> s_drift s <> None ->
    exists s', post_step c s = Ok s' /\
      s_x s' = map (map (c_pp c)) (s_x s) /\
      s_energy s' = s_energy s /\ s_alpha s' = s_alpha s /\ s_nfe s' = s_nfe s /\ s_fcalls s' = s_fcalls s /\
      s_M s' = s_M s /\ s_N s' = s_N s /\ s_sigma s' = s_sigma s /\ s_lamda s' = s_lamda s /\
      s_dt s' = s_dt s /\ s_t s' = fadd (s_t s) (s_dt s) /\ s_it s' = S (s_it s) /\
      s_active s' = s_active s /\ s_reason s' = s_reason s /\ s_cidx s' = s_cidx s /\ s_pidx s' = s_pidx s /\
      s_ind s' = s_ind s /\ s_cep s' = s_cep s /\ s_save s' = s_save s /\ s_cons s' = s_cons s /\
      s_drift s' = s_drift s /\ s_xold s' = s_xold s /\
      keys_ok (s_tracks s') (s_hist s') /\
      length (s_be s') = s_M s /\ length (s_bp s') = s_M s /\ length (s_fmin s') = s_M s /\
      length (s_udiff s') = s_M s /\
      forall m r xor, row_at s m = Some r -> nth_error xo m = Some xor ->
        exists r', run_post c xor r = Ok r' /\ row_at s' m = Some r'.
  Proof.
    intros c s xo Hxo Rxo Rx Re HN Hbe Hbp Hsave Hkeys Hd.
    unfold post_step. sst. rewrite Hxo. cbv zeta.
    unfold update_best_cur. sst. rewrite Hxo.
    destruct (mapM_ok _ _ argmin (s_energy s)) as [am Ham].
    { intros e He. apply In_nth_error in He. destruct He as [k Hk].
      destruct (argmin_ok e) as (j & v & E). { rewrite (proj2 Re _ _ Hk). auto. } eauto. }
    rewrite Ham. cbn [bind]. pose proof (mapM_length _ _ _ _ _ Ham) as Hlam.
    assert (Hamk : forall k e, nth_error (s_energy s) k = Some e -> exists j v,
               argmin e = Ok (j, v) /\ nth_error am k = Some (j, v) /\ nth_error e j = Some v).
    { intros k e Hk. destruct (mapM_nth _ _ _ _ _ _ _ Ham Hk) as ([j v] & E1 & E2).
      exists j, v. split; auto. split; auto. eapply argmin_nth; eauto. }
    assert (Hpick : forall A (X : arr A), rect (s_M s) (s_N s) X -> exists p, pick X (map fst am) = Ok p /\
              length p = s_M s /\
              forall m row j v, nth_error X m = Some row -> nth_error am m = Some (j, v) ->
                exists a, take1 row j = Ok a /\ nth_error p m = Some a).
    { intros A X [RX1 RX2]. unfold pick. rewrite map_length, Hlam, RX1, (proj1 Re), Nat.eqb_refl.
      destruct (mapM_ok _ _ (fun p => take1 (fst p) (snd p)) (combine X (map fst am))) as [p Hp].
      { intros [row j] Hin. apply In_nth_error in Hin. destruct Hin as [k Hk].
        rewrite nth_error_combine in Hk.
        destruct (nth_error X k) eqn:E1; try discriminate.
        rewrite nth_error_map in Hk. destruct (nth_error am k) as [[j' v]|] eqn:E2; cbn in Hk; try discriminate.
        inversion Hk; subst. cbn.
        assert (Hke : k < length (s_energy s)) by (rewrite <- Hlam; eapply nth_error_lt; eauto).
        destruct (nth_error_lt_Some _ _ _ Hke) as [e Ee].
        destruct (Hamk _ _ Ee) as (j0 & v0 & E3 & E4 & E5). rewrite E2 in E4. inversion E4; subst.
        apply nth_error_lt in E5. rewrite (proj2 Re _ _ Ee), <- (RX2 _ _ E1) in E5.
        destruct (nth_error_lt_Some _ _ _ E5) as [a Ea]. exists a. apply take1_ok; auto. }
      exists p. split; auto. split.
      { rewrite (mapM_length _ _ _ _ _ Hp), combine_length, map_length, Hlam, (proj1 Re). lia. }
      intros m row j v E1 E2. destruct (mapM_nth _ _ _ _ _ m (row, j) Hp) as (a & Ea & Eb).
      { rewrite nth_error_combine, E1, nth_error_map, E2. auto. }
      eauto. }
    destruct (Hpick _ xo Rxo) as (bcp & E1 & Lbcp & Hbcp). rewrite E1. cbn [bind].
    destruct (Hpick _ (s_energy s) Re) as (bce & E2 & Lbce & Hbce). rewrite E2. cbn [bind].
    unfold update_best. sst.
    match goal with |- context [track c ?s4] => destruct (track_ok c s4) as (ti & ts & h & Et & Hk); [sst; auto ..|] end.
    rewrite Et. cbn [bind]. eexists. split; [reflexivity|]. sst.
    split; [reflexivity|].
    set (b := map2 (fun be bce0 => fltb bce0 be) (s_be s) bce).
    assert (Lb : length b = s_M s). { unfold b. rewrite map2_length. lia. }
    repeat (split; [first [reflexivity | assumption]|]).
    split. { rewrite select_length; lia. }
    split. { rewrite select_length; lia. }
    split. { rewrite map_length, Hlam. apply Re. }
    split. { rewrite map2_length, map_length. destruct Rx, Rxo. lia. }
    intros m r xor Hr Hxor.
    unfold row_at in Hr. sst. unfold row_at. sst.
    destruct (nth_error (s_x s) m) as [xr|] eqn:Ex; try discriminate.
    destruct (nth_error (s_energy s) m) as [er|] eqn:Ee; try discriminate.
    destruct (nth_error (s_alpha s) m) as [ar|] eqn:Ea; try discriminate.
    destruct (nth_error (s_be s) m) as [be|] eqn:Ebe; try discriminate.
    destruct (nth_error (s_bp s) m) as [bp|] eqn:Ebp; try discriminate.
    destruct (nth_error (s_nfe s) m) as [nf|] eqn:Enf; try discriminate.
    destruct (nth_error (s_udiff s) m) as [ud|] eqn:Eud; try discriminate.
    destruct (nth_error (s_fmin s) m) as [fm|] eqn:Efm; try discriminate.
    inversion Hr; subst r; clear Hr.
    destruct (Hamk _ _ Ee) as (j & v & A1 & A2 & A3).
    destruct (Hbcp _ _ _ _ Hxor A2) as (p & P1 & P2).
    destruct (Hbce _ _ _ _ Ee A2) as (e & Q1 & Q2).
    unfold run_post. cbn [r_x r_e r_a r_be r_bp r_nfe r_ud r_fmin r_bce r_bcp].
    rewrite A1. cbn [bind fst snd]. rewrite P1. cbn [bind]. rewrite Q1. cbn [bind].
    eexists. split; [reflexivity|].
    rewrite nth_error_map, Ex. cbn [option_map].
    rewrite !map2_nth, nth_error_map, Ex, Hxor. cbn [option_map].
    rewrite (nth_error_map snd), A2. cbn [option_map snd].
    rewrite !select_nth by lia.
    assert (Eb : nth_error b m = Some (fltb e be)). { unfold b. rewrite map2_nth, Ebe, Q2. auto. }
    rewrite Eb, P2, Q2, Ebe, Ebp. destruct (fltb e be); reflexivity.
  Qed.
End Step.
