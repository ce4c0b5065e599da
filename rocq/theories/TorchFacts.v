(** * Flattening of network parameters is lossless *)
From Coq Require Import String List Arith Bool Lia.
From Verif Require Import Np NpFacts PdynOk Dispatch DispatchFacts Torch.
Import ListNotations.
Open Scope nat_scope.
Open Scope list_scope.

(** Models of the same architecture: the same names with the same shapes; every tensor has as many entries
    as its shape says. *)
Definition layout_of {A} (m : module A) : list (string * list nat) := map (fun e => (fst e, fst (snd e))) m.
Definition sized {A} (m : module A) : Prop := Forall (fun e => length (snd (snd e)) = numel (fst (snd e))) m.
Definition same_architecture {A} (models : list (module A)) (names : list (string * list nat)) : Prop :=
  NoDup (map fst names) /\ models <> [] /\ Forall (fun m => layout_of m = names /\ sized m) models.

Section TorchFacts.
  Context {A : Type}.

  Lemma lookup_app_l : forall C (t u : list (string * C)) s, ~ In s (map fst t) -> lookup (t ++ u) s = lookup u s.
  Proof.
    induction t as [|[k c] t IH]; cbn; intros u s H; auto. destruct (String.eqb_spec k s); [subst; tauto |]. apply IH. tauto.
  Qed.

  Lemma lookup_layout : forall (m : module A) s, lookup (layout_of m) s = option_map fst (lookup m s).
  Proof. induction m as [|[k t] m IH]; cbn; intros; auto. destruct (String.eqb k s); auto. Qed.

  Lemma lookup_sized : forall (m : module A) s t, sized m -> lookup m s = Some t -> length (snd t) = numel (fst t).
  Proof.
    intros m s t H E. apply lookup_In in E. unfold sized in H. rewrite Forall_forall in H. apply (H (s, t)). auto.
  Qed.

  (** the entry of a name in the stacked state *)
  Lemma stack_lookup : forall (models : list (module A)) names, same_architecture models names ->
    exists st, stack_module_state models = Ok st /\ map fst st = map fst names /\
      forall p sh, lookup names p = Some sh ->
        exists rows, lookup st p = Some (sh, rows) /\
          Forall2 (fun m d => lookup m p = Some (sh, d)) models rows.
  Proof.
    intros models names (ND & NE & HF). destruct models as [|m0 ms]; [congruence |]. cbn [stack_module_state].
    set (models := m0 :: ms) in *.
    assert (G : forall (es : module A),
       (forall p sh d, In (p, (sh, d)) es -> lookup names p = Some sh) -> NoDup (map fst es) ->
       exists st, mapM (fun e : string * tensor A =>
          rows <- mapM (fun m : module A =>
                    match lookup m (fst e) with
                    | Some t => if list_eq_dec Nat.eq_dec (fst t) (fst (snd e)) then Ok (snd t) else Err RuntimeErr
                    | None => Err KeyError
                    end) models ;;
          Ok (fst e, (fst (snd e), rows))) es = Ok st /\ map fst st = map fst es /\
       forall p sh d, In (p, (sh, d)) es -> exists rows, lookup st p = Some (sh, rows) /\
          Forall2 (fun m d => lookup m p = Some (sh, d)) models rows).
    { induction es as [|[p0 [sh0 d0]] es IH]; intros Hin Hnd.
      - exists []. split; auto. split; auto. intros ? ? ? [].
      - inversion Hnd as [|? ? N1 N2]; subst.
        destruct IH as (st & E & F & Hs); auto. { intros. eapply Hin. right. eauto. }
        assert (Hr : forall ml : list (module A), Forall (fun m => layout_of m = names /\ sized m) ml ->
          exists rows, mapM (fun m : module A =>
                    match lookup m p0 with
                    | Some t => if list_eq_dec Nat.eq_dec (fst t) sh0 then Ok (snd t) else Err RuntimeErr
                    | None => Err KeyError
                    end) ml = Ok rows /\ Forall2 (fun m d => lookup m p0 = Some (sh0, d)) ml rows).
        { assert (Hp0 : lookup names p0 = Some sh0) by (eapply Hin; left; reflexivity).
          induction 1 as [|m ml [Hl Hs'] HF' IH']; [exists []; split; [reflexivity | constructor] |].
          destruct IH' as (rows & Er & Fr). rewrite <- Hl, lookup_layout in Hp0.
          destruct (lookup m p0) as [[sh d]|] eqn:El; [| discriminate]. cbn in Hp0. injection Hp0 as ->.
          exists (d :: rows). cbn [mapM]. rewrite El. cbn [fst snd].
          destruct (list_eq_dec Nat.eq_dec sh0 sh0); [| congruence]. cbn [bind]. rewrite Er. split; auto. }
        destruct (Hr models HF) as (rows & Er & Fr).
        exists ((p0, (sh0, rows)) :: st). split.
        { cbn [mapM fst snd]. rewrite Er. cbn [bind]. rewrite E. reflexivity. }
        split; [cbn; congruence |]. intros p sh d [H | H].
        + injection H as <- <- <-. exists rows. cbn. rewrite String.eqb_refl. auto.
        + destruct (Hs p sh d H) as (rows' & E1 & E2). exists rows'. cbn.
          destruct (String.eqb_spec p0 p); [| auto]. subst. exfalso. apply N1. apply in_map_iff. exists (p, (sh, d)). auto. }
    assert (Hl0 : layout_of m0 = names) by (inversion HF; tauto).
    assert (Hm0 : forall p sh d, In (p, (sh, d)) m0 -> lookup names p = Some sh).
    { intros p sh d H. apply In_lookup; auto. rewrite <- Hl0. apply in_map_iff. exists (p, (sh, d)). auto. }
    assert (Hnames : map fst m0 = map fst names).
    { rewrite <- Hl0. unfold layout_of. rewrite map_map. auto. }
    destruct (G m0 Hm0) as (st & E & F & Hs); [rewrite Hnames; auto |].
    exists st. split; auto. split; [congruence |]. intros p sh H.
    rewrite <- Hl0, lookup_layout in H. destruct (lookup m0 p) as [[sh' d]|] eqn:El; [| discriminate]. cbn in H. injection H as ->.
    apply (Hs p sh d). apply lookup_In. auto.
  Qed.

  (** consecutive slices *)
  Fixpoint layout (a : nat) (l : list (string * list nat)) : list (string * prop) :=
    match l with
    | [] => []
    | (p, sh) :: l' => (p, (sh, (a, a + numel sh))) :: layout (a + numel sh) l'
    end.
  Definition total (l : list (string * list nat)) : nat := fold_right (fun e n => numel (snd e) + n) 0 l.

  Lemma od_set_new : forall B p (v : B) l, ~ In p (map fst l) -> od_set p v l = l ++ [(p, v)].
  Proof.
    induction l as [|[q u] l IH]; cbn; intros H; auto. destruct (String.eqb_spec q p); [subst; tauto |]. rewrite IH; tauto.
  Qed.

  Lemma last_end_app : forall l p sh a b, last_end (l ++ [(p, (sh, (a, b)))]) = b.
  Proof. intros. unfold last_end. rewrite rev_app_distr. auto. Qed.

  Lemma pp_loop_spec : forall (st : @stacked A) sel acc,
    (forall p sh, In (p, sh) sel -> exists rows, lookup st p = Some (sh, rows)) ->
    NoDup (map fst acc ++ map fst sel) ->
    pp_loop st (map fst sel) acc = Ok (acc ++ layout (last_end acc) sel).
  Proof.
    induction sel as [|[p sh] sel IH]; intros acc H ND; cbn [map pp_loop].
    - rewrite app_nil_r. auto.
    - destruct (H p sh (or_introl eq_refl)) as (rows & E). cbn [fst]. unfold getitem. rewrite E. cbn [bind fst].
      cbn [map fst] in ND.
      assert (Np : ~ In p (map fst acc)).
      { apply NoDup_remove in ND. destruct ND as [_ ND]. intros Hp. apply ND. apply in_or_app. auto. }
      rewrite od_set_new by auto. rewrite IH.
      + rewrite last_end_app, <- app_assoc. reflexivity.
      + intros. apply H. right. auto.
      + rewrite map_app, <- app_assoc. exact ND.
  Qed.

  (** cutting a vector along the slices *)
  Lemma eval_layout : forall (sel : list (string * list nat)) (ds : list (list A)) pre post,
    Forall2 (fun e d => length d = numel (snd e)) sel ds ->
    eval_params (pre ++ concat ds ++ post) (layout (length pre) sel) =
      Ok (map2 (fun e d => (fst e, (snd e, d))) sel ds).
  Proof.
    intros sel ds pre post H. revert pre. induction H as [|[p sh] d sel ds Hd HF IH]; intros pre; auto.
    cbn [layout concat map2 fst snd]. unfold eval_params in *. cbn [mapM].
    assert (E : firstn (length pre + numel sh - length pre) (skipn (length pre) (pre ++ (d ++ concat ds) ++ post)) = d).
    { replace (length pre + numel sh - length pre) with (length d) by (cbn [snd] in Hd; lia).
      rewrite skipn_app, skipn_all, Nat.sub_diag. cbn [app skipn]. rewrite <- app_assoc.
      rewrite firstn_app, firstn_all, Nat.sub_diag. cbn [firstn]. apply app_nil_r. }
    rewrite E. cbn [snd] in Hd. rewrite Hd, Nat.eqb_refl. cbn [bind].
    replace (length pre + numel sh) with (length (pre ++ d)) by (rewrite app_length; lia).
    rewrite <- app_assoc. rewrite (app_assoc pre d). rewrite IH. reflexivity.
  Qed.

  (** a vector of the right length is cut into tensors that make it up again *)
  Lemma cut_total : forall (sel : list (string * list nat)) (w : list A), length w = total sel ->
    exists ds, w = concat ds /\ Forall2 (fun e d => length d = numel (snd e)) sel ds.
  Proof.
    induction sel as [|[p sh] sel IH]; intros w H; cbn [total fold_right snd] in H; fold (total sel) in H || idtac.
    - destruct w; [| discriminate]. exists []. split; auto.
    - destruct (IH (skipn (numel sh) w)) as (ds & E & F). { rewrite skipn_length. lia. }
      exists (firstn (numel sh) w :: ds). split.
      + cbn. rewrite <- E. symmetry. apply firstn_skipn.
      + constructor; auto. cbn [snd]. rewrite firstn_length. lia.
  Qed.

  Lemma layout_tiles : forall sel a k, a <= k < a + total sel ->
    exists p sh u v, In (p, (sh, (u, v))) (layout a sel) /\ u <= k < v.
  Proof.
    induction sel as [|[p sh] sel IH]; intros a k H; cbn [total fold_right snd] in H; [lia |]. fold (total sel) in H.
    destruct (lt_dec k (a + numel sh)) as [L | L].
    - exists p, sh, a, (a + numel sh). cbn. split; [auto | lia].
    - destruct (IH (a + numel sh) k) as (p' & sh' & u & v & Hin & Hk); [lia |]. exists p', sh', u, v. cbn. auto.
  Qed.

  Lemma layout_range : forall sel a p sh u v, In (p, (sh, (u, v))) (layout a sel) ->
    In (p, sh) sel /\ a <= u /\ v = u + numel sh /\ v <= a + total sel.
  Proof.
    induction sel as [|[p0 sh0] sel IH]; intros a p sh u v H; [destruct H |]. cbn in H. destruct H as [H | H].
    - injection H as <- <- <- <-. cbn [total fold_right snd In]. split; auto. lia.
    - apply IH in H. cbn [total fold_right snd In]. fold (total sel). intuition lia.
  Qed.

  Lemma layout_disjoint : forall sel a p sh u v p' sh' u' v' k, NoDup (map fst sel) ->
    In (p, (sh, (u, v))) (layout a sel) -> In (p', (sh', (u', v'))) (layout a sel) ->
    u <= k < v -> u' <= k < v' -> p = p'.
  Proof.
    induction sel as [|[p0 sh0] sel IH]; intros a p sh u v p' sh' u' v' k ND H H' Hk Hk'; [destruct H |].
    inversion ND; subst. cbn in H, H'. destruct H as [H | H]; destruct H' as [H' | H'].
    - congruence.
    - injection H as <- <- <- <-. apply layout_range in H'. lia.
    - injection H' as <- <- <- <-. apply layout_range in H. lia.
    - eapply IH; eauto.
  Qed.

  Lemma map_fst_layout : forall sel a, map fst (layout a sel) = map fst sel.
  Proof. induction sel as [|[p sh] sel IH]; intros; cbn; f_equal; auto. Qed.

  (** the shapes of the chosen names *)
  Lemma sel_exists : forall (names : list (string * list nat)) pnames, incl pnames (map fst names) ->
    exists sel, map fst sel = pnames /\ forall p sh, In (p, sh) sel -> lookup names p = Some sh.
  Proof.
    induction pnames as [|p ps IH]; intros H.
    - exists []. split; auto. intros ? ? [].
    - destruct IH as (sel & E & Hs). { intros q Hq. apply H. right. auto. }
      destruct (lookup names p) as [sh|] eqn:El.
      + exists ((p, sh) :: sel). split; [cbn; congruence |]. intros q s [Hq | Hq]; [injection Hq as <- <-; auto | auto].
      + exfalso. apply lookup_None in El. apply El. apply H. left. auto.
  Qed.

  Lemma cols_spec : forall (models : list (module A)) st sel,
    (forall p sh, In (p, sh) sel -> exists rows, lookup st p = Some (sh, rows) /\
       Forall2 (fun m d => lookup m p = Some (sh, d)) models rows) ->
    exists cols, mapM (fun p => e <- getitem st p ;; Ok (snd e)) (map fst sel) = Ok cols /\ length cols = length sel /\
      forall n m, nth_error models n = Some m ->
        Forall2 (fun e c => lookup m (fst e) = Some (snd e, nth n c [])) sel cols.
  Proof.
    induction sel as [|[p sh] sel IH]; intros H.
    - exists []. split; [reflexivity |]. split; [reflexivity |]. intros; constructor.
    - destruct IH as (cols & E & L & F). { intros. apply H. right. auto. }
      destruct (H p sh (or_introl eq_refl)) as (rows & El & Fr).
      exists (rows :: cols). split.
      { cbn [map fst mapM]. unfold getitem at 1. rewrite El. cbn [bind snd]. rewrite E. reflexivity. }
      split; [cbn; auto |]. intros n m En. constructor; [| apply F; auto]. cbn.
      clear - En Fr. revert n En. induction Fr as [|m' d models rows Hd _ IH]; intros n En; [destruct n; discriminate |].
      destruct n as [|n]; cbn in *; [injection En as <-; exact Hd | auto].
  Qed.

  Lemma torch_flatten_spec : forall (models : list (module A)) names pnames, same_architecture models names ->
    NoDup pnames -> incl pnames (map fst names) -> pnames <> [] ->
    exists W pprop, flatten_parameters models pnames = Ok W /\ get_param_properties models (Some pnames) = Ok pprop /\
      map fst pprop = pnames /\ length W = length models /\
      forall n m w, nth_error models n = Some m -> nth_error W n = Some w ->
        (exists l, eval_params w pprop = Ok l /\ map fst l = pnames /\ forall p, In p pnames -> lookup l p = lookup m p) /\
        (forall k, k < length w -> exists! p, exists sh a b, In (p, (sh, (a, b))) pprop /\ a <= k < b).
  Proof.
    intros models names pnames SA ND Inc NE.
    destruct (stack_lookup models names SA) as (st & Est & Fst & Hst).
    destruct (sel_exists names pnames Inc) as (sel & Esel & Hsel).
    destruct (cols_spec models st sel) as (cols & Ec & Lc & Fc). { intros. apply Hst. auto. }
    assert (NC : cols <> []).
    { intros ->. destruct sel; [cbn in Esel; congruence | discriminate]. }
    exists (map (fun n => concat (map (fun c => nth n c []) cols)) (seq 0 (length models))), (layout 0 sel).
    split. { unfold flatten_parameters. rewrite Est. cbn [bind]. rewrite <- Esel, Ec. cbn [bind]. destruct cols; congruence. }
    split. { unfold get_param_properties. rewrite Est. cbn [bind]. rewrite <- Esel. rewrite pp_loop_spec; auto.
      - intros p sh Hin. destruct (Hst p sh (Hsel _ _ Hin)) as (rows & E & _). eauto.
      - cbn. rewrite Esel. auto. }
    split. { rewrite map_fst_layout. auto. }
    split. { rewrite map_length, seq_length. auto. }
    intros n m w Em Ew. rewrite nth_error_map in Ew.
    assert (Ln : n < length models) by (eapply nth_error_lt; eauto).
    rewrite nth_error_seq in Ew. destruct (Nat.ltb_spec n (length models)); [| lia]. cbn [option_map] in Ew.
    rewrite Nat.add_0_l in Ew. injection Ew as <-.
    set (ds := map (fun c => nth n c []) cols).
    assert (Fd : Forall2 (fun e d => lookup m (fst e) = Some (snd e, d)) sel ds).
    { specialize (Fc n m Em). unfold ds. clear - Fc. induction Fc; cbn; constructor; auto. }
    assert (Sm : sized m). { destruct SA as (_ & _ & HF). rewrite Forall_forall in HF. apply (HF m). eapply nth_error_In; eauto. }
    assert (Fl : Forall2 (fun e d => length d = numel (snd e)) sel ds).
    { clear - Fd Sm. induction Fd as [|e d sel ds He _ IH]; constructor; auto. apply (lookup_sized _ _ _ Sm He). }
    split.
    - exists (map2 (fun e d => (fst e, (snd e, d))) sel ds). split.
      { pose proof (eval_layout sel ds [] [] Fl) as E. cbn [app length] in E. rewrite app_nil_r in E. exact E. }
      split. { clear - Fd Esel. rewrite <- Esel. clear Esel. induction Fd; cbn; f_equal; auto. }
      intros p Hp. rewrite <- Esel in Hp, ND. clear - Fd Hp ND.
      induction Fd as [|[q sh] d sel ds He _ IH]; [destruct Hp |]. cbn in *. inversion ND; subst.
      destruct (String.eqb_spec q p) as [-> | Nq]; [auto |]. destruct Hp as [-> | Hp]; [congruence |]. apply IH; auto.
    - intros k Hk.
      assert (Lt : length (concat ds) = total sel).
      { clear - Fl. induction Fl as [|e d sel ds He _ IH]; cbn [concat total fold_right]; auto. fold (total sel). rewrite app_length. lia. }
      destruct (layout_tiles sel 0 k) as (p & sh & a & b & Hin & Hab); [lia |].
      exists p. split; [eauto |]. intros p' (sh' & a' & b' & Hin' & Hab').
      eapply layout_disjoint; eauto. rewrite Esel. auto.
  Qed.

  (** without names: all of them *)
  Lemma torch_default_names : forall (models : list (module A)) names, same_architecture models names -> names <> [] ->
    exists W pprop, flatten_parameters models (map fst names) = Ok W /\ get_param_properties models None = Ok pprop /\
      map fst pprop = map fst names /\ length W = length models /\
      forall n m w, nth_error models n = Some m -> nth_error W n = Some w ->
        exists l, eval_params w pprop = Ok l /\ map fst l = map fst names /\ forall p, In p (map fst names) -> lookup l p = lookup m p.
  Proof.
    intros models names SA NE. destruct (torch_flatten_spec models names (map fst names) SA) as (W & pprop & H1 & H2 & H3 & H4 & H5).
    - destruct SA as (ND & _). exact ND.
    - apply incl_refl.
    - destruct names; [congruence|discriminate].
    - exists W, pprop. split; auto. split; [|split; auto; split; auto; intros n m w Hm Hw; apply (H5 n m w Hm Hw)].
      destruct (stack_lookup models names SA) as (st & Est & Fst & _). unfold get_param_properties in H2 |- *. rewrite Est in H2 |- *. cbn [bind] in H2 |- *. rewrite Fst. exact H2.
  Qed.

  (** ... and every vector of the right length is the flattening of the parameters cut out of it *)
  Lemma torch_unflatten_spec : forall (models : list (module A)) names pnames pprop (w : list A), same_architecture models names ->
    NoDup pnames -> incl pnames (map fst names) -> get_param_properties models (Some pnames) = Ok pprop ->
    length w = last_end pprop ->
    exists l, eval_params w pprop = Ok l /\ concat (map (fun e => snd (snd e)) l) = w /\ sized l.
  Proof.
    intros models names pnames pprop w SA ND Inc HP Lw.
    destruct (stack_lookup models names SA) as (st & Est & Fst & Hst).
    destruct (sel_exists names pnames Inc) as (sel & Esel & Hsel).
    assert (E : pprop = layout 0 sel).
    { unfold get_param_properties in HP. rewrite Est in HP. cbn [bind] in HP. rewrite <- Esel in HP.
      rewrite pp_loop_spec in HP; [cbn in HP; congruence | |].
      - intros p sh Hin. destruct (Hst p sh (Hsel _ _ Hin)) as (rows & Er & _). eauto.
      - cbn. rewrite Esel. auto. }
    assert (Le : forall s a, s <> [] -> last_end (layout a s) = a + total s).
    { induction s as [|[p sh] s IH]; intros a Hs; [congruence |]. cbn [layout]. destruct s as [|e s].
      - unfold last_end; cbn [layout rev app snd total fold_right]; lia.
      - unfold last_end in *. cbn [rev]. specialize (IH (a + numel sh)).
        destruct (rev (layout (a + numel sh) (e :: s))) as [|x r] eqn:Er.
        + destruct e. cbn in Er. apply app_eq_nil in Er. destruct Er. discriminate.
        + cbn [app]. rewrite IH by discriminate. cbn [total fold_right snd]. lia. }
    assert (Lt : length w = total sel).
    { rewrite Lw, E. destruct sel; [reflexivity |]. rewrite Le by discriminate. lia. }
    destruct (cut_total sel w Lt) as (ds & -> & F).
    exists (map2 (fun e d => (fst e, (snd e, d))) sel ds). subst pprop.
    pose proof (eval_layout sel ds [] [] F) as Ev. cbn [app length] in Ev. rewrite app_nil_r in Ev.
    split; auto. clear - F. split.
    - induction F; cbn; f_equal; auto.
    - unfold sized. induction F; cbn; constructor; auto.
  Qed.

  Lemma torch_unknown : forall (models : list (module A)) names pnames, same_architecture models names ->
    ~ incl pnames (map fst names) -> flatten_parameters models pnames = Err KeyError.
  Proof.
    intros models names pnames SA H. destruct (stack_lookup models names SA) as (st & Est & Fst & Hst).
    unfold flatten_parameters. rewrite Est. cbn [bind].
    assert (G : mapM (fun p => e <- getitem st p ;; Ok (snd e)) pnames = Err KeyError).
    { rewrite <- Fst in H. clear - H. induction pnames as [|p ps IH]; [exfalso; apply H; intros ? [] |].
      cbn [mapM]. unfold getitem at 1. destruct (lookup st p) as [e|] eqn:El; cbn [bind].
      - rewrite IH; auto. intros Hi. apply H. intros q [<- | Hq]; [| apply Hi; auto].
        apply lookup_In in El. apply in_map_iff. eexists (p, e). auto.
      - reflexivity. }
    rewrite G. reflexivity.
  Qed.
End TorchFacts.
