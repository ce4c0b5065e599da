(** * Proofs about random number streams *)
From Coq Require Import String List Arith Bool Permutation Lia.
From Verif Require Import Scalar Np NpFacts State Pdyn PdynFacts PdynStep PdynRun PdynOk Exec TermFacts RunFacts StepFrame Seed SeedSpec.
Import ListNotations.
Open Scope nat_scope.
Open Scope list_scope.

Section SeedFacts.
  Context {K V G : Type} {O : KOps K}.
  Notation st := (st K V).
  Notation cfg := (cfg K V).
  Notation cmd := (cmd K V G).
  Notation args := (args K V).
  Notation world := (world G).
  Notation dyn := (dyn K V G).

  (** ** dynamics with own streams do not see the world *)
  Lemma sample_own : forall (R : numpy G V) r n w w' g, fst (sample R false r n w g) = fst (sample R false r n w' g) /\
    snd (snd (sample R false r n w g)) = snd (snd (sample R false r n w' g)).
  Proof. intros. unfold sample. destruct (np_normal R g r n). auto. Qed.
  Lemma construct_own : forall (R : numpy G V) (a : args) w w', reproducible_args a -> fst (construct R a w) = fst (construct R a w').
  Proof.
    intros R a w w' (Hx & Hs & Hg). unfold construct, make_rng, sample. rewrite Hg.
    destruct (a_seed a); [|congruence]. destruct (a_x a); [|congruence]. destruct (if c_bsize (a_c a) =? shape1 a0 then _ else _) as [p0 b1].
    destruct (a_check a); [|reflexivity]. destruct (np_normal R (np_rng R n) (length a0) (shape1 a0)). cbn [fst snd]. reflexivity.
  Qed.
  Lemma step_own : forall (R : numpy G V) (a : args) w w' d, a_global a = false -> fst (seeded_step R a w d) = fst (seeded_step R a w' d).
  Proof.
    intros R a w w' d Hg. unfold seeded_step, sample. rewrite Hg. destruct (if refill (a_c a) (d_s d) then _ else _) as [p b].
    destruct (np_normal R (d_rng d) _ _) as [z g]. reflexivity.
  Qed.
  Lemma opt_own : forall (R : numpy G V) (a : args) sched fuel w w' d, a_global a = false -> fst (seeded_opt R a sched fuel w d) = fst (seeded_opt R a sched fuel w' d).
  Proof.
    intros R a sched fuel. induction fuel as [|fuel IH]; intros w w' d Hg; [reflexivity|]. cbn [seeded_opt].
    destruct (terminate (a_c a) (d_s d)) as [[b s']|]; [|reflexivity]. destruct b; [reflexivity|].
    pose proof (step_own R a w w' (mkdyn s' (d_rng d) (d_batch d)) Hg) as E.
    destruct (seeded_step R a w _) as [r1 w1]. destruct (seeded_step R a w' _) as [r2 w2]. cbn [fst] in E. subst r2.
    destruct r1; [|reflexivity]. destruct (sched (d_s a0)); [|reflexivity]. now apply IH.
  Qed.

  Definition good_slot (v : option (args * res dyn)) : Prop := match v with Some (a, _) => reproducible_args a | None => True end.
  Lemma cmd_other : forall (R : numpy G V) k x p, about k x = false -> snd (run_cmd R p x) k = snd p k.
  Proof.
    intros R k x [w f] H. destruct x; cbn [about run_cmd fst snd] in *; auto; try rewrite Nat.eqb_sym in H.
    - destruct (construct R a w). cbn. unfold upd. now rewrite H.
    - unfold on_dyn. cbn [fst snd]. destruct (f k0) as [[a [d|]]|]; auto. destruct (seeded_step R a w d). cbn. unfold upd. now rewrite H.
    - unfold on_dyn. cbn [fst snd]. destruct (f k0) as [[a [d|]]|]; auto. destruct (seeded_opt R a sched fuel w d). cbn. unfold upd. now rewrite H.
    - unfold on_dyn. cbn [fst snd]. destruct (f k0) as [[a [d|]]|]; auto. cbn. unfold upd. now rewrite H.
  Qed.
  Lemma on_dyn_self : forall f k (p : world * slots K V G), snd (on_dyn f k p) k =
    match snd p k with Some (a, Ok d) => Some (a, fst (f a (fst p) d)) | v => v end.
  Proof.
    intros f k [w h]. unfold on_dyn. cbn [fst snd]. destruct (h k) as [[a [d|e]]|] eqn:E; cbn [snd]; auto. destruct (f a w d) as [r w1]. cbn. unfold upd. now rewrite Nat.eqb_refl.
  Qed.
  (** the same command, to dynamics [j] and [k] with equal content *)
  Lemma cmd_self : forall (R : numpy G V) j k x p q, about k x = true -> snd p j = snd q k -> good_slot (snd q k) -> (forall a, x = CNew k a -> reproducible_args a) ->
    snd (run_cmd R p (redirect j x)) j = snd (run_cmd R q x) k /\ good_slot (snd (run_cmd R q x) k).
  Proof.
    intros R j k x [wp hp] [wq hq] H E Gd Hn. cbn [fst snd] in *. destruct x; cbn [about run_cmd redirect] in *; try discriminate; apply Nat.eqb_eq in H; subst k0.
    - pose proof (construct_own R a wp wq (Hn a eq_refl)) as Ec. cbn [fst snd]. destruct (construct R a wp) as [r w1]. destruct (construct R a wq) as [r2 w2].
      cbn in Ec. subst r2. cbn. unfold upd. rewrite !Nat.eqb_refl. cbn. auto.
    - rewrite !on_dyn_self. cbn [fst snd]. rewrite E. destruct (hq k) as [[a [d|]]|]; auto. cbn [good_slot] in *. split; auto. do 2 f_equal. apply step_own. apply Gd.
    - rewrite !on_dyn_self. cbn [fst snd]. rewrite E. destruct (hq k) as [[a [d|]]|]; auto. cbn [good_slot] in *. split; auto. do 2 f_equal. apply opt_own. apply Gd.
    - rewrite !on_dyn_self. cbn [fst snd]. rewrite E. destruct (hq k) as [[a [d|]]|]; auto.
  Qed.
  Lemma fold_other : forall (R : numpy G V) k l p, forallb (fun x => negb (about k x)) l = true -> snd (fold_left (run_cmd R) l p) k = snd p k.
  Proof.
    intros R k l. induction l as [|x l IH]; intros p H; [reflexivity|]. cbn in *. apply andb_prop in H as [H1 H2]. rewrite IH by auto.
    apply cmd_other. now destruct (about k x).
  Qed.
  Lemma redirect_about : forall j k x, about k x = true -> about j (redirect j x : cmd) = true.
  Proof. intros j k x H. destruct x; cbn in *; try discriminate; apply Nat.eqb_refl. Qed.
  (** [l'] treats [j] as [l] treats [k] *)
  Lemma fold_same : forall (R : numpy G V) j k l l' p q, filter (about j) l' = map (redirect j) (filter (about k) l) -> snd p j = snd q k -> good_slot (snd q k) ->
    reproducible k l -> snd (fold_left (run_cmd R) l' p) j = snd (fold_left (run_cmd R) l q) k.
  Proof.
    intros R j k l. induction l as [|x l IH]; intros l' p q H E Gd Hr.
    - cbn in *. rewrite fold_other; auto. clear - H. induction l'; cbn in *; auto. destruct (about j a); [discriminate|]. auto.
    - cbn [fold_left]. cbn [filter] in H. destruct (about k x) eqn:Ex.
      + cbn [map] in H. revert p E. induction l' as [|y l' IHl]; intros p E; [discriminate|]. cbn [filter] in H. destruct (about j y) eqn:Ey.
        * injection H as -> H. cbn [fold_left]. destruct (cmd_self R j k x p q Ex E Gd) as [E1 G1].
          { intros a ->. apply Hr. now left. }
          apply IH; auto. intros a Ha. apply Hr. now right.
        * cbn [fold_left]. apply IHl; auto. now rewrite cmd_other.
      + apply IH; auto; try (rewrite cmd_other by auto; auto). intros a Ha. apply Hr. now right.
  Qed.
  (** the final state of a dynamic with given ensemble and seed depends on its own commands only *)
  Theorem isolated : forall (R : numpy G V) j k l l' w w', reproducible k l -> filter (about j) l' = map (redirect j) (filter (about k) l) ->
    snd (run_script R l' w') j = snd (run_script R l w) k.
  Proof. intros. unfold run_script. apply fold_same; auto. exact I. Qed.

  (** ** seeded dynamics are the dynamics of the other properties *)
  Lemma seeded_step_ok : forall (R : numpy G V) (a : args) w d d' w', seeded_step R a w d = (Ok d', w') ->
    exists z p, step (a_c a) {| o_z := z; o_perm := p |} (d_s d) = Ok (d_s d') /\
      (if refill (a_c a) (d_s d) then p = fst (np_permuted R (d_batch d) (s_M (d_s d)) (s_N (d_s d))) /\ d_batch d' = snd (np_permuted R (d_batch d) (s_M (d_s d)) (s_N (d_s d)))
       else d_batch d' = d_batch d) /\
      (a_global a = false -> np_normal R (d_rng d) (length (s_active (d_s d))) (width (a_c a) (d_s d)) = (z, d_rng d')).
  Proof.
    intros R a w d d' w' H. unfold seeded_step in H.
    destruct (if refill (a_c a) (d_s d) then _ else _) as [p b] eqn:Ep. destruct (sample R (a_global a) _ _ w (d_rng d)) as [z [w1 g]] eqn:Es.
    destruct (step (a_c a) _ (d_s d)) as [s'|] eqn:Hs; [|discriminate]. cbn [bind] in H. injection H as <- <-. cbn [d_s d_batch d_rng]. exists z, p. split; [exact Hs|]. split.
    - destruct (refill _ _); [|congruence]. rewrite Ep. auto.
    - intros Hg. rewrite Hg in Es. unfold sample in Es. destruct (np_normal R (d_rng d) _ _) as [z0 g0]. congruence.
  Qed.
  Lemma bind_ext : forall A B (r : res A) (k k' : A -> res B), (forall a, k a = k' a) -> bind r k = bind r k'.
  Proof. intros A B [a|] k k' H; cbn; auto. Qed.
  Lemma perm_unused : forall (c : cfg) z p p' s, refill c s = false -> step c {| o_z := z; o_perm := p |} s = step c {| o_z := z; o_perm := p' |} s.
  Proof.
    intros c z p p' s H. unfold refill in H. unfold step, pre_step, set_batch_idx, set_batch_idx_batched. sst. cbn [o_perm].
    destruct (c_bsize c =? s_N s); [|rewrite H]; (apply bind_ext; intro s1; reflexivity).
  Qed.
  Lemma seeded_orc : forall (R : numpy G V) (a : args) w d d' w', numpy_ok R -> seeded_step R a w d = (Ok d', w') ->
    exists o, perms_valid o (d_s d) /\ step (a_c a) o (d_s d) = Ok (d_s d').
  Proof.
    intros R a w d d' w' [NP _] H. destruct (seeded_step_ok _ _ _ _ _ _ H) as (z & p & Hs & Hp & _). destruct (refill (a_c a) (d_s d)) eqn:Er.
    - destruct Hp as [-> _]. eexists. split; [|exact Hs]. intros m Hm. cbn [o_perm]. now apply NP.
    - exists {| o_z := z; o_perm := fun _ => seq 0 (s_N (d_s d)) |}. split; [intros m _; apply Permutation_refl|]. now rewrite (perm_unused _ _ _ p).
  Qed.
  Lemma construct_exec : forall (R : numpy G V) (a : args) w d w', numpy_ok R -> args_ok a -> construct R a w = (Ok d, w') ->
    constructed (a_c a) (d_s d) /\ s_M (d_s d) = runs_of a /\ s_N (d_s d) = particles_of a /\
    d_batch d = (if c_bsize (a_c a) =? particles_of a then np_mt R (a_bseed a) else snd (np_permuted R (np_mt R (a_bseed a)) (runs_of a) (particles_of a))) /\
    s_ind (d_s d) = (if c_bsize (a_c a) =? particles_of a then [] else map (fst (np_permuted R (np_mt R (a_bseed a)) (runs_of a) (particles_of a))) (seq 0 (runs_of a))).
  Proof.
    intros R a w d w' [NP NU] [Hx Hsv] H. unfold construct in H. destruct (make_rng R (a_seed a) w) as [g w1].
    assert (Hxx : exists x w2, (match a_x a with Some x => (x, w1) | None => let '(u, g') := np_uniform R (w_glob w1) (a_M a) (a_N a) in (u, mkworld g' (w_os w1)) end) = (x, w2) /\
      is_array (length x) (shape1 x) x /\ 1 <= shape1 x /\ 1 <= c_bsize (a_c a) <= shape1 x /\ length x = runs_of a /\ shape1 x = particles_of a).
    { unfold runs_of, particles_of. destruct (a_x a) as [x|]; [exists x, w1; tauto|]. destruct Hx as (H1 & H2 & H3).
      pose proof (NU (w_glob w1) (a_M a) (a_N a)) as Hu. destruct (np_uniform R (w_glob w1) (a_M a) (a_N a)) as [u g']. cbn [fst] in Hu. exists u, (mkworld g' (w_os w1)).
      split; [reflexivity|]. destruct Hu as [Lu Fu]. assert (Sh : shape1 u = a_N a). { destruct u; [cbn in Lu; lia|]. inversion Fu; auto. }
      rewrite Sh, Lu. repeat split; auto; lia. }
    destruct Hxx as (x & w2 & Ex & A1 & A2 & A3 & A4 & A5). rewrite Ex in H. clear Ex.
    destruct (if a_check a then _ else _) as [w3 g1].
    destruct (if c_bsize (a_c a) =? shape1 x then _ else _) as [p0 b1] eqn:Ep.
    destruct (init (a_c a) x _ _ _ _ _ p0 _ _ _) as [s|] eqn:Ei; [|discriminate]. cbn [bind] in H. injection H as <- <-. cbn [d_s d_batch].
    assert (Hp : exists p, init (a_c a) x (a_check a) (a_alpha a) (a_sigma a) (a_lamda a) (a_dt a) p (a_names a) (a_extra a) (a_save a) = Ok s /\
      forall m, m < length x -> Permutation (p m) (seq 0 (shape1 x))).
    { destruct (c_bsize (a_c a) =? shape1 x) eqn:Eb.
      - exists (fun _ => seq 0 (shape1 x)). split; [|intros; apply Permutation_refl]. rewrite <- Ei. unfold init. rewrite Eb. reflexivity.
      - exists p0. split; [exact Ei|]. intros m Hm. pose proof (NP (np_mt R (a_bseed a)) (length x) (shape1 x) m Hm) as Hq. now rewrite Ep in Hq. }
    destruct Hp as (p & Ei' & Hp). split.
    { exists x, (a_check a), (a_alpha a), (a_sigma a), (a_lamda a), (a_dt a), p, (a_names a), (a_extra a), (a_save a). repeat (split; [solve [auto]|]). exact Ei'. }
    clear Ei'. unfold init in Ei. apply bind_ok in Ei. destruct Ei as (bp & Ebp & Ei). match type of Ei with Ok (init_history _ _ _ ?s1) = _ => set (s0 := s1) in * end.
    destruct (init_history_char (a_names a) (a_extra a) (a_save a) s0) as (ts & h & E & _). rewrite E in Ei. injection Ei as <-. subst s0. sst.
    rewrite <- A4, <- A5. repeat (split; [reflexivity|]). destruct (c_bsize (a_c a) =? shape1 x).
    - injection Ep as <- <-. auto.
    - rewrite Ep. auto.
  Qed.
  Lemma life_exec : forall (R : numpy G V) (a : args) n d, numpy_ok R -> args_ok a -> life R a n d -> exists log, exec (a_c a) (d_s d) log.
  Proof.
    intros R a n d NP A L. induction L.
    - exists []. apply ex_init. eapply construct_exec; eauto.
    - destruct IHL as (log & E). destruct (seeded_orc _ _ _ _ _ _ NP H) as (o & P & Hs). eexists. eapply ex_step; eauto.
    - destruct IHL as (log & E). exists log. cbn [d_s]. eapply ex_term; eauto.
    - destruct IHL as (log & E). exists log. cbn [d_s]. eapply ex_params; eauto.
    - destruct IHL as (log & E). exists log. cbn [d_s]. now apply ex_reset.
  Qed.

  (** ** every dynamic of a script *)
  Lemma opt_life : forall (R : numpy G V) (a : args) sched fuel w d d' w' n, sched_ok sched -> life R a n d -> seeded_opt R a sched fuel w d = (Ok d', w') -> exists n', life R a n' d'.
  Proof.
    intros R a sched fuel. induction fuel as [|fuel IH]; intros w d d' w' n Hs L H; cbn [seeded_opt] in H; [injection H as <- <-; eauto|].
    destruct (terminate (a_c a) (d_s d)) as [[b s']|] eqn:Et; [|discriminate]. pose proof (li_term _ _ _ _ _ _ L Et) as L1. destruct b; [injection H as <- <-; eauto|].
    destruct (seeded_step R a w _) as [[d1|] w1] eqn:Es; [|discriminate]. pose proof (li_step _ _ _ _ _ _ _ L1 Es) as L2.
    destruct (sched (d_s d1)) as [s2|] eqn:Ec; [|discriminate]. apply (IH _ _ _ _ _ Hs (li_params _ _ _ _ _ L2 (Hs _ _ Ec)) H).
  Qed.
  Definition slots_live (R : numpy G V) (f : slots K V G) : Prop := forall k a d, f k = Some (a, Ok d) -> args_ok a /\ exists n, life R a n d.
  Lemma upd_live : forall (R : numpy G V) k a r f, slots_live R f -> (forall d, r = Ok d -> args_ok a /\ exists n, life R a n d) -> slots_live R (upd k (Some (a, r)) f).
  Proof. intros R k a r f Hf Hr j b d. unfold upd. destruct (j =? k); [|apply Hf]. intros E. injection E as <- ->. now apply Hr. Qed.
  Lemma cmd_live : forall (R : numpy G V) x p, slots_live R (snd p) -> (forall k a, x = CNew k a -> args_ok a) -> (forall k f n, x = COpt k f n -> sched_ok f) -> slots_live R (snd (run_cmd R p x)).
  Proof.
    intros R x [w f] Hf Ha Hs. cbn [snd] in Hf. destruct x; cbn [run_cmd fst snd].
    - destruct (construct R a w) as [r w'] eqn:E. cbn [snd]. apply upd_live; auto. intros d ->. split; [eapply Ha; eauto|]. exists 0. eapply li_new; eauto.
    - unfold on_dyn. cbn [fst snd]. destruct (f k) as [[a [d|]]|] eqn:Ek; auto. destruct (seeded_step R a w d) as [r w'] eqn:E. cbn [snd]. apply upd_live; auto. intros d' ->.
      destruct (Hf _ _ _ Ek) as (A & n & L). split; auto. exists (S n). eapply li_step; eauto.
    - unfold on_dyn. cbn [fst snd]. destruct (f k) as [[a [d|]]|] eqn:Ek; auto. destruct (seeded_opt R a sched fuel w d) as [r w'] eqn:E. cbn [snd]. apply upd_live; auto. intros d' ->.
      destruct (Hf _ _ _ Ek) as (A & n & L). split; auto. eapply opt_life; eauto.
    - unfold on_dyn. cbn [fst snd]. destruct (f k) as [[a [d|]]|] eqn:Ek; auto. cbn [snd]. apply upd_live; auto. intros d' E. injection E as <-.
      destruct (Hf _ _ _ Ek) as (A & n & L). split; auto. exists n. now constructor.
    - exact Hf.
  Qed.
  Theorem script_live : forall (R : numpy G V) l w k a d, script_ok l -> snd (run_script R l w) k = Some (a, Ok d) -> args_ok a /\ exists n, life R a n d.
  Proof.
    intros R l w k a d [H1 H2]. unfold run_script. assert (S0 : slots_live R (snd (w, fun _ : nat => @None (args * res dyn)))) by (intros j b e; cbn; discriminate).
    revert S0. generalize (w, fun _ : nat => @None (args * res dyn)). revert H1 H2.
    induction l as [|x l IH]; intros H1 H2 p S0; cbn [fold_left]; [apply S0|].
    apply IH. { intros; eapply H1; right; eauto. } { intros; eapply H2; right; eauto. }
    apply cmd_live; auto; [intros j b ->; eapply H1|intros j f n ->; eapply H2]; left; reflexivity.
  Qed.
  Theorem script_exec : forall (R : numpy G V) l w k a d, numpy_ok R -> script_ok l -> snd (run_script R l w) k = Some (a, Ok d) -> exists log, exec (a_c a) (d_s d) log.
  Proof. intros. destruct (script_live _ _ _ _ _ _ H0 H1) as (A & n & L). eapply life_exec; eauto. Qed.

  (** ** batches *)
  (** indices and generator after one more step *)
  Definition next_ind (R : numpy G V) (M N b : nat) (cat : bool) (q : list (list nat) * G) : list (list nat) * G :=
    if b =? N then q else
    let full := shape1 (fst q) <? b in
    let fresh := map (fst (np_permuted R (snd q) M N)) (seq 0 M) in
    (map (skipn b) (if full then (if cat then map2 (fun x y => x ++ y) (fst q) fresh else fresh) else fst q),
     if full then snd (np_permuted R (snd q) M N) else snd q).
  Definition batch_rows (R : numpy G V) (M N b : nat) (cat : bool) (q : list (list nat) * G) : list (list nat) :=
    let full := shape1 (fst q) <? b in
    let fresh := map (fst (np_permuted R (snd q) M N)) (seq 0 M) in
    map (firstn b) (if full then (if cat then map2 (fun x y => x ++ y) (fst q) fresh else fresh) else fst q).
  Definition first_ind (R : numpy G V) (M N b sd : nat) : list (list nat) * G :=
    if b =? N then ([], np_mt R sd) else (map (fst (np_permuted R (np_mt R sd) M N)) (seq 0 M), snd (np_permuted R (np_mt R sd) M N)).
  Fixpoint iter_ind (R : numpy G V) (M N b : nat) (cat : bool) (n : nat) (q : list (list nat) * G) : list (list nat) * G :=
    match n with 0 => q | S n' => next_ind R M N b cat (iter_ind R M N b cat n' q) end.

  Lemma step_ind : forall (R : numpy G V) (a : args) w d d' w', seeded_step R a w d = (Ok d', w') ->
    (s_ind (d_s d'), d_batch d') = next_ind R (s_M (d_s d)) (s_N (d_s d)) (c_bsize (a_c a)) (c_concat (a_c a)) (s_ind (d_s d), d_batch d) /\
    (c_bsize (a_c a) <> s_N (d_s d) -> exists bs, s_cidx (d_s d') = IBatch (s_active (d_s d)) bs /\
       takeM (batch_rows R (s_M (d_s d)) (s_N (d_s d)) (c_bsize (a_c a)) (c_concat (a_c a)) (s_ind (d_s d), d_batch d)) (s_active (d_s d)) = Ok bs).
  Proof.
    intros R a w d d' w' H. destruct (seeded_step_ok _ _ _ _ _ _ H) as (z & p & Hs & Hp & _).
    destruct (step_idx_frame _ _ _ _ Hs) as (s1 & E1 & Ec & _ & Ei). rewrite Ei, Ec. clear Ei Ec Hs H. unfold refill in Hp. unfold next_ind, batch_rows. cbn [fst snd].
    unfold pre_step, set_batch_idx, set_batch_idx_batched in E1. ssti E1. destruct (Nat.eqb_spec (c_bsize (a_c a)) (s_N (d_s d))) as [Eb|Eb].
    - injection E1 as <-. unfold set_batch_idx_unbatched. sst. split; [now rewrite Hp|congruence].
    - cbn [o_perm] in E1. destruct (shape1 (s_ind (d_s d)) <? c_bsize (a_c a)).
      + destruct Hp as [-> ->]. destruct (takeM _ _) as [bs|] eqn:Et in E1; [|discriminate]. cbn [bind] in E1. injection E1 as <-. sst. split; [reflexivity|]. intros _. eexists. split; [reflexivity|exact Et].
      + destruct (takeM _ _) as [bs|] eqn:Et in E1; [|discriminate]. cbn [bind] in E1. injection E1 as <-. sst. rewrite Hp. split; [reflexivity|]. intros _. eexists. split; [reflexivity|exact Et].
  Qed.
  Lemma life_ind : forall (R : numpy G V) (a : args) n d, numpy_ok R -> args_ok a -> life R a n d -> s_M (d_s d) = runs_of a /\ s_N (d_s d) = particles_of a /\
    (s_ind (d_s d), d_batch d) = iter_ind R (runs_of a) (particles_of a) (c_bsize (a_c a)) (c_concat (a_c a)) n (first_ind R (runs_of a) (particles_of a) (c_bsize (a_c a)) (a_bseed a)).
  Proof.
    intros R a n d NP A L. induction L.
    - destruct (construct_exec _ _ _ _ _ NP A H) as (_ & H1 & H2 & H3 & H4). split; auto. split; auto. cbn [iter_ind]. unfold first_ind. rewrite H3, H4. now destruct (c_bsize (a_c a) =? particles_of a).
    - destruct IHL as (H1 & H2 & H3). destruct (life_exec _ _ _ _ NP A L) as (log & E). destruct (seeded_orc _ _ _ _ _ _ NP H) as (o & P & Hs).
      destruct (step_ok_char (a_c a) o (d_s d) (d_s d') (exec_wf _ _ _ E) (perms_valid_ok _ _ P) Hs) as (_ & (M1 & N1 & _) & _).
      rewrite M1, N1. split; auto. split; auto. cbn [iter_ind]. rewrite <- H3. destruct (step_ind _ _ _ _ _ _ H) as [-> _]. now rewrite H1, H2.
    - destruct IHL as (H1 & H2 & H3). unfold terminate in H. apply bind_ok in H. destruct H as (s2 & H & E). injection E as _ <-.
      unfold select_active_runs in H. apply bind_ok in H. destruct H as (loc & _ & H). injection H as <-. cbn [d_s d_batch]. sst. auto.
    - destruct IHL as (H1 & H2 & H3). destruct H as (al & sg & la & dt & _ & ->). cbn [d_s d_batch]. sst. auto.
    - destruct IHL as (H1 & H2 & H3). cbn [d_s d_batch]. unfold reset. destruct (init_history_char None [] None (set_it 0 (d_s d))) as (ts & h & E & _). rewrite E. sst. auto.
  Qed.
  Theorem batches_same : forall (R : numpy G V) (a a' : args) n d d', numpy_ok R -> args_ok a -> args_ok a' -> same_batching a a' -> life R a n d -> life R a' n d' ->
    s_ind (d_s d) = s_ind (d_s d') /\ d_batch d = d_batch d'.
  Proof.
    intros R a a' n d d' NP A A' (B1 & B2 & B3 & B4 & B5) L L'. destruct (life_ind _ _ _ _ NP A L) as (_ & _ & E). destruct (life_ind _ _ _ _ NP A' L') as (_ & _ & E').
    rewrite <- B1, <- B2, <- B3, <- B4, <- B5, <- E in E'. injection E' as -> ->. auto.
  Qed.
  Lemma takeM_combine : forall A (X : list A) act bs m b, takeM X act = Ok bs -> In (m, b) (combine act bs) -> nth_error X m = Some b.
  Proof.
    intros A X act. induction act as [|i act IH]; intros bs m b H Hin; [destruct Hin|]. unfold takeM in H. cbn [mapM] in H. apply bind_ok in H. destruct H as (y & Hy & H).
    apply bind_ok in H. destruct H as (ys & Hys & H). injection H as <-. cbn [combine] in Hin. destruct Hin as [Hin|Hin]; [|eapply IH; eauto].
    injection Hin as <- <-. unfold take1 in Hy. destruct (nth_error X i); congruence.
  Qed.
  Theorem batches_same_run : forall (R : numpy G V) (a a' : args) n d d' d1 d1' w w1 w' w1' m b b', numpy_ok R -> args_ok a -> args_ok a' -> same_batching a a' -> life R a n d -> life R a' n d' ->
    seeded_step R a w d = (Ok d1, w1) -> seeded_step R a' w' d' = (Ok d1', w1') -> batch_of (d_s d1) m b -> batch_of (d_s d1') m b' -> b = b'.
  Proof.
    intros R a a' n d d' d1 d1' w w1 w' w1' m b b' NP A A' SB L L' H H' (act & bs & Hc & Hin) (act' & bs' & Hc' & Hin').
    destruct (batches_same _ _ _ _ _ _ NP A A' SB L L') as [E1 E2]. destruct SB as (B1 & B2 & B3 & B4 & B5).
    destruct (life_ind _ _ _ _ NP A L) as (M1 & N1 & _). destruct (life_ind _ _ _ _ NP A' L') as (M2 & N2 & _).
    destruct (step_ind _ _ _ _ _ _ H) as [_ J]. destruct (step_ind _ _ _ _ _ _ H') as [_ J'].
    rewrite M2, N2, <- B1, <- B2, <- B3, <- B4, <- E1, <- E2 in J'. rewrite M1, N1 in J.
    destruct (Nat.eq_dec (c_bsize (a_c a)) (particles_of a)) as [Eb|Eb].
    - exfalso. destruct (seeded_step_ok _ _ _ _ _ _ H) as (z & p & Hs & _). destruct (step_idx_frame _ _ _ _ Hs) as (s1 & Ep & Ec & _). rewrite Ec in Hc.
      unfold pre_step, set_batch_idx in Ep. ssti Ep. rewrite N1, Eb, Nat.eqb_refl in Ep. injection Ep as <-. unfold set_batch_idx_unbatched in Hc. ssti Hc. destruct (_ =? _); discriminate.
    - destruct (J Eb) as (q & Q1 & Q2). destruct (J' Eb) as (q' & Q1' & Q2'). rewrite Hc in Q1. rewrite Hc' in Q1'. injection Q1 as -> ->. injection Q1' as -> ->.
      pose proof (takeM_combine _ _ _ _ _ _ Q2 Hin) as T1. pose proof (takeM_combine _ _ _ _ _ _ Q2' Hin') as T2. congruence.
  Qed.

  (** ** the array drawn in a step has the shape of the drift *)
  Lemma drift_shape : forall (c : cfg) o s log s', exec c s log -> plain c (s_N s) -> perms_valid o s -> step c o s = Ok s' ->
    exists D, s_drift s' = Some D /\ is_array (length (s_active s)) (width c s) D.
  Proof.
    intros c o s log s' E [Hcc Hn] P Hs. pose proof (exec_wf _ _ _ E) as W. pose proof (perms_valid_ok _ _ P) as PO.
    destruct (step_char c o s W PO Hcc Hn) as (s2 & Hs2 & _ & _ & _ & _ & (cp & D & _ & HD & _ & LD & Hrow) & _). rewrite Hs in Hs2. injection Hs2 as <-.
    exists D. split; [exact HD|]. split; [exact LD|]. rewrite Forall_forall. intros dr Hdr. apply In_nth_error in Hdr. destruct Hdr as (k & Hk).
    assert (Kl : k < length (s_active s)) by (rewrite <- LD; eapply nth_error_lt; eauto). destruct (nth_error_lt_Some _ _ _ Kl) as (m & Hm).
    assert (Mm : m < s_M s) by (apply W; eapply nth_error_In; eauto). destruct (row_at_Some c s m W Mm) as (r & Hr & _).
    destruct (Hrow k m r Hm Hr) as (r1 & cpr & dr' & r' & Hmv & _ & Hd & _). rewrite Hk in Hd. injection Hd as <-.
    unfold run_move in Hmv. destruct (r_a r) as [|al [|]]; try discriminate. apply bind_ok in Hmv. destruct Hmv as (xb & Hxb & Hmv). apply bind_ok in Hmv. destruct Hmv as (er & _ & Hmv).
    apply bind_ok in Hmv. destruct Hmv as (xp & Hxp & Hmv). apply bind_ok in Hmv. destruct Hmv as (xr & _ & Hmv). injection Hmv as _ _ <-.
    assert (Lxp : length xp = width c s).
    { rewrite (takeM_length _ _ _ _ Hxp). unfold run_selp, width. destruct (c_bsize c =? s_N s) eqn:Eb; [apply seq_length|]. destruct (c_partial c); [|apply seq_length].
      pose proof (run_sel_length c o s m W PO Mm) as L. unfold run_sel in L. now rewrite Eb in L. }
    rewrite rowop_length; [exact Lxp|]. destruct Hcc as [H1|[H1 H2]]; rewrite H1; [now left|right]. rewrite (takeM_length _ _ _ _ Hxb), (takeM_length _ _ _ _ Hxp).
    now rewrite (run_selp_length c o s m W PO Mm H2).
  Qed.

  (** ** the check of the objective advances the sampler *)
  Lemma check_draws : forall (R : numpy G V) (a : args) w w1 w2 d d' sd, reproducible_args a -> a_seed a = Some sd -> a_check a = true -> construct R a w = (Ok d, w1) -> construct R (unchecked a) w = (Ok d', w2) ->
    d_rng d' = np_rng R sd /\ d_rng d = snd (np_normal R (np_rng R sd) (runs_of a) (particles_of a)) /\ s_x (d_s d) = s_x (d_s d') /\ d_batch d = d_batch d' /\ s_ind (d_s d) = s_ind (d_s d').
  Proof.
    intros R a w w1 w2 d d' sd (Hx & _ & Hg) Hs Hc H H'. unfold construct in *. cbn [unchecked a_c a_x a_M a_N a_seed a_bseed a_check a_global a_alpha a_sigma a_lamda a_dt a_names a_extra a_save] in H'.
    unfold runs_of, particles_of. rewrite Hs, Hc in *. cbn [make_rng] in *. destruct (a_x a) as [x|]; [|congruence]. rewrite Hg in *. unfold sample in H.
    destruct (np_normal R (np_rng R sd) (length x) (shape1 x)) as [z g]. cbn [snd] in *.
    destruct (if c_bsize (a_c a) =? shape1 x then _ else _) as [p0 b1]. destruct (init (a_c a) x true _ _ _ _ _ _ _ _) as [s|] eqn:E1; [|discriminate].
    destruct (init (a_c a) x false _ _ _ _ _ _ _ _) as [s'|] eqn:E2; [|discriminate]. cbn [bind] in *. injection H as <- <-. injection H' as <- <-. cbn [d_rng d_s d_batch].
    split; auto. split; auto. unfold init in E1, E2. apply bind_ok in E1. destruct E1 as (bp & _ & E1). apply bind_ok in E2. destruct E2 as (bp2 & _ & E2).
    match type of E1 with Ok (init_history _ _ _ ?s1) = _ => destruct (init_history_char (a_names a) (a_extra a) (a_save a) s1) as (ts & h & E & _); rewrite E in E1; injection E1 as <- end.
    match type of E2 with Ok (init_history _ _ _ ?s1) = _ => destruct (init_history_char (a_names a) (a_extra a) (a_save a) s1) as (ts2 & h2 & Eq & _); rewrite Eq in E2; injection E2 as <- end.
    sst. auto.
  Qed.
End SeedFacts.
