(** * Constructors: lemmas *)
From Coq Require Import String List Bool.
From Verif Require Import Np NpFacts Ctor CtorSpec.
Import ListNotations.
Open Scope string_scope.
Open Scope list_scope.

Section Facts.
  Context {U : Type}.
  Notation val := (val U).
  Notation kwargs := (kwargs U).

  Lemma mem_In : forall k l, mem k l = true <-> In k l.
  Proof.
    intros k l. unfold mem. rewrite existsb_exists. split.
    - intros (x & H & E). apply String.eqb_eq in E. subst. auto.
    - intros H. exists k. split; auto. apply String.eqb_refl.
  Qed.

  (** does a keyword find a parameter? *)
  Fixpoint reach (l : list cname) (k : string) : bool :=
    match l with
    | [] => true
    | c :: l' => mem k (map fst (own (U:=U) (sig_of c))) ||
                 (more (U:=U) (sig_of c) && negb (mem k (map fst (named (U:=U) (sig_of c)))) && reach l' k)
    end.
  Fixpoint named_ok (l : list cname) : bool :=
    match l with [] => true | c :: l' => forallb (reach l') (map fst (named (U:=U) (sig_of c))) && named_ok l' end.

  Lemma call_reach : forall l (kw : kwargs), named_ok l = true ->
    if forallb (reach l) (keys kw) then exists r, call l kw = Ok r else call l kw = Err TypeError.
  Proof.
    induction l as [|c l IH]; intros kw N.
    - cbn. replace (forallb _ _) with true; [eauto|]. symmetry. apply forallb_forall. auto.
    - cbn [named_ok] in N. apply andb_true_iff in N. destruct N as [N1 N2]. cbn [call].
      set (own_ := map fst (own (U:=U) (sig_of c))). set (named_ := map fst (named (U:=U) (sig_of c))) in *.
      set (rest := filter (fun kv : string * val => negb (mem (fst kv) own_)) kw).
      assert (KR : forall k, In k (keys rest) <-> In k (keys kw) /\ mem k own_ = false).
      { intros k. unfold keys, rest. rewrite !in_map_iff. split.
        - intros (kv & <- & H). apply filter_In in H. destruct H as [H1 H2]. apply negb_true_iff in H2. eauto.
        - intros ((kv & <- & H) & M). exists kv. split; auto. apply filter_In. rewrite M. auto. }
      destruct (more (U:=U) (sig_of c)) eqn:Em; cbn [negb].
      + match goal with |- context [map (fun n => (fst n, snd n ?a)) (named (sig_of c)) ++ rest] => set (nm := map (fun n => (fst n, snd n a)) (named (sig_of c))) end.
        assert (KN : keys nm = named_) by (unfold keys, nm, named_; rewrite map_map; reflexivity).
        specialize (IH (nm ++ rest) N2).
        assert (KA : keys (nm ++ rest) = named_ ++ keys rest) by (unfold keys; rewrite map_app; fold (keys nm); rewrite KN; auto).
        rewrite KA, forallb_app, N1 in IH. cbn [andb] in IH.
        destruct (existsb (fun kv : string * val => mem (fst kv) named_) rest) eqn:Ex.
        * apply existsb_exists in Ex. destruct Ex as (kv & H & M).
          assert (K : In (fst kv) (keys rest)) by (apply in_map; auto). pose proof (proj1 (KR _) K) as [K1 K2].
          replace (forallb (reach (c :: l)) (keys kw)) with false; [reflexivity|]. symmetry.
          apply not_true_is_false. intros F. rewrite forallb_forall in F. specialize (F _ K1). cbn [reach] in F. fold own_ named_ in F.
          rewrite K2, M, Em in F. cbn in F. discriminate.
        * assert (NM : forall k, In k (keys rest) -> mem k named_ = false).
          { intros k H. unfold keys in H. apply in_map_iff in H. destruct H as (kv & <- & H).
            destruct (mem (fst kv) named_) eqn:E; auto. rewrite <- Ex. symmetry. apply existsb_exists. eauto. }
          assert (EQ : forallb (reach (c :: l)) (keys kw) = forallb (reach l) (keys rest)).
          { apply eq_true_iff_eq. rewrite !forallb_forall. split.
            - intros F k H. pose proof (proj1 (KR _) H) as [K1 K2]. specialize (F _ K1). cbn [reach] in F. fold own_ named_ in F.
              rewrite K2, Em, (NM _ H) in F. exact F.
            - intros F k H. cbn [reach]. fold own_ named_. destruct (mem k own_) eqn:Eo; auto.
              assert (Hr : In k (keys rest)) by (apply KR; auto). rewrite Em, (NM _ Hr), (F _ Hr). auto. }
          rewrite EQ. destruct (forallb (reach l) (keys rest)).
          -- destruct IH as (r & E). rewrite E. cbn. eauto.
          -- rewrite IH. reflexivity.
      + assert (EQ : forallb (reach (c :: l)) (keys kw) = match rest with [] => true | _ => false end).
        { apply eq_true_iff_eq. rewrite forallb_forall. split.
          - intros F. destruct rest as [|kv r] eqn:Er; auto. assert (K : In (fst kv) (keys (kv :: r))) by (left; auto).
            pose proof (proj1 (KR _) K) as [K1 K2]. specialize (F _ K1). cbn [reach] in F. fold own_ in F. rewrite K2, Em in F. exact F.
          - intros F k H. cbn [reach]. fold own_. destruct (mem k own_) eqn:Eo; auto.
            assert (Hr : In k (keys rest)) by (apply KR; auto). destruct rest; [destruct Hr|discriminate]. }
        rewrite EQ. destruct rest; eauto.
  Qed.

  (** ** Values *)
  Fixpoint named_val (q : string) (l : list (string * ((string -> val) -> val))) : option ((string -> val) -> val) :=
    match l with [] => None | (k, f) :: r => if String.eqb q k then Some f else named_val q r end.
  Definition same_class (c c' : cname) : bool :=
    match c, c' with
    | ParticleDynamic, ParticleDynamic | CBXDynamic, CBXDynamic | TorchDyn, TorchDyn => true
    | _, _ => false
    end.
  Fixpoint value (l : list cname) (c0 : cname) (g : string -> option val) (p : string) : val :=
    match l with
    | [] => PyNone
    | c :: l' =>
        let s := sig_of c in
        let a q := match g q with Some v => v | None => match assoc q (own s) with Some v => v | None => PyNone end end in
        if same_class c0 c then a p
        else if more s then
          value l' c0 (fun q => match named_val q (named s) with Some f => Some (f a) | None => if mem q (map fst (own s)) then None else g q end) p
        else PyNone
    end.

  Lemma assoc_app : forall (k : string) (l m : kwargs), assoc k (l ++ m) = match assoc k l with Some v => Some v | None => assoc k m end.
  Proof. induction l as [|[q v] l IH]; intros m; cbn; auto. destruct (String.eqb k q); auto. Qed.
  Lemma assoc_filter : forall (k : string) o (l : kwargs),
    assoc k (filter (fun kv => negb (mem (fst kv) o)) l) = if mem k o then None else assoc k l.
  Proof.
    induction l as [|[q v] l IH]; cbn; [destruct (mem k o); auto|]. destruct (mem q o) eqn:E; cbn; rewrite IH.
    - destruct (String.eqb_spec k q); auto. subst. rewrite E. auto.
    - destruct (String.eqb_spec k q); auto. subst. rewrite E. auto.
  Qed.
  Lemma assoc_named : forall (q : string) a (l : list (string * ((string -> val) -> val))),
    assoc q (map (fun n => (fst n, snd n a)) l) = option_map (fun f => f a) (named_val q l).
  Proof. induction l as [|[k f] l IH]; cbn; auto. destruct (String.eqb q k); auto. Qed.

  Definition ext (P : (string -> val) -> val) : Prop := forall a b, (forall q, a q = b q) -> P a = P b.
  Lemma named_ext : forall c q f, named_val q (named (sig_of c)) = Some f -> ext f.
  Proof.
    intros c q f H a b E. destruct c; cbn in H; try discriminate;
      repeat (destruct (String.eqb q _); [injection H as <-; cbn; rewrite ?E; reflexivity|]); discriminate.
  Qed.
  Lemma value_ext : forall l c0 g g' p, (forall q, g q = g' q) -> value l c0 g p = value l c0 g' p.
  Proof.
    induction l as [|c l IH]; intros c0 g g' p E; cbn [value]; auto. destruct (same_class c0 c); [rewrite E; auto|].
    destruct (more (sig_of c)); auto. apply IH. intros q. destruct (named_val q (named (sig_of c))) as [f|] eqn:En.
    - f_equal. apply (named_ext c q f En). intros r. rewrite E. auto.
    - rewrite E. auto.
  Qed.

  Lemma call_value : forall l c0 (kw : kwargs) r p, In c0 [ParticleDynamic; CBXDynamic; TorchDyn] -> call l kw = Ok r ->
    at_class c0 r p = value l c0 (fun q => assoc q kw) p.
  Proof.
    induction l as [|c l IH]; intros c0 kw r p H0 H; cbn [call] in H.
    - injection H as <-. reflexivity.
    - cbn [value]. destruct (more (U:=U) (sig_of c)) eqn:Em; cbn [negb] in H.
      + destruct (existsb _ _); [discriminate|].
        match type of H with (r0 <- ?e ;; _) = _ => destruct e as [r'|] eqn:E; [|discriminate] end. cbn [bind] in H. injection H as <-. cbn [at_class].
        assert (G : (if same_class c0 c then fun p0 => match assoc p0 kw with Some v => v | None => match assoc p0 (own (sig_of c)) with Some v => v | None => PyNone end end
                     else at_class c0 r') p =
          (match c0, c with
           | ParticleDynamic, ParticleDynamic | CBXDynamic, CBXDynamic | TorchDyn, TorchDyn =>
               fun p0 => match assoc p0 kw with Some v => v | None => match assoc p0 (own (sig_of c)) with Some v => v | None => PyNone end end
           | _, _ => at_class c0 r' end) p) by (destruct c0, c; reflexivity).
        rewrite <- G. clear G. destruct (same_class c0 c); auto.
        rewrite (IH _ _ _ _ H0 E). apply value_ext. intros q. rewrite assoc_app, assoc_named, assoc_filter.
        destruct (named_val q (named (sig_of c))); reflexivity.
      + destruct (filter _ kw); [|discriminate]. injection H as <-. cbn [at_class].
        destruct H0 as [<-|[<-|[<-|[]]]]; destruct c; reflexivity.
  Qed.

  (** ** The classes of the library *)
  Ltac literal H := repeat (destruct H as [H|H]; [subst|]); try contradiction.

  Ltac peel H :=
    lazymatch type of H with
    | (_ || _)%bool = true => apply orb_prop in H; destruct H as [H|H]; peel H
    | (_ && _)%bool = true => let H1 := fresh "P" in apply andb_prop in H; destruct H as [H1 H]; peel H
    | mem _ _ = true => apply mem_In in H; cbn [In] in H; literal H
    | _ => discriminate H
    end.
  Lemma reach_accepted : forall c k, dynamic c -> (reach (mro c) k = true <-> accepted c k).
  Proof.
    intros c k (D1 & D2 & D3). unfold accepted. split.
    - intros H. destruct c; try congruence; cbn [reach mro sig_of own named more map fst andb orb] in H; peel H;
        try (split; [apply mem_In; reflexivity|intros [A B]; first [discriminate A|discriminate B]]);
        exfalso; match goal with X : negb _ = true |- _ => discriminate X end.
    - intros [H N]. destruct c; try congruence; cbn [extra_names cbx_names particle_names app In] in H; literal H;
        first [reflexivity|exfalso; apply N; split; reflexivity].
  Qed.
  Lemma reach_torch : forall c k, dynamic c -> (reach (mro_torch c) k = true <-> k = "device" \/ accepted c k).
  Proof.
    intros c k D. unfold mro_torch. cbn [reach sig_of own named more map fst mem existsb andb negb]. rewrite orb_false_r, orb_true_iff, (reach_accepted c k D).
    rewrite String.eqb_eq. tauto.
  Qed.
  Lemma mro_named : forall c, named_ok (mro c) = true.
  Proof. destruct c; reflexivity. Qed.
  Lemma mro_torch_named : forall c, named_ok (mro_torch c) = true.
  Proof. destruct c; reflexivity. Qed.

  Lemma build_call : forall l (kw : kwargs), (exists o, build l kw = Ok o) <-> (exists r, call l kw = Ok r).
  Proof.
    intros l kw. unfold build. destruct (call l kw) as [r|]; cbn [bind]; split; intros (x & H); try discriminate; eauto.
  Qed.
  Lemma build_err : forall l (kw : kwargs), call l kw = Err TypeError -> build l kw = Err TypeError.
  Proof. intros l kw H. unfold build. rewrite H. reflexivity. Qed.

  Lemma accepts : forall l (A : string -> Prop), named_ok l = true -> (forall k, reach l k = true <-> A k) -> forall kw : kwargs,
    ((exists o, build l kw = Ok o) <-> forall k, In k (keys kw) -> A k) /\ ((exists o, build l kw = Ok o) \/ build l kw = Err TypeError).
  Proof.
    intros l A N HA kw. pose proof (call_reach l kw N) as H. destruct (forallb (reach l) (keys kw)) eqn:E.
    - split; [|left; apply build_call; auto]. split; intros; [|apply build_call; auto].
      apply HA. rewrite forallb_forall in E. auto.
    - split; [|right; apply build_err; auto]. split.
      + intros B. apply build_call in B. destruct B as (r & B). congruence.
      + intros B. exfalso. rewrite <- not_true_iff_false in E. apply E. apply forallb_forall. intros k Hk. apply HA. auto.
  Qed.

  Theorem numpy_accepts : forall c (kw : kwargs), dynamic c ->
    ((exists o, build (mro c) kw = Ok o) <-> forall k, In k (keys kw) -> accepted c k) /\
    ((exists o, build (mro c) kw = Ok o) \/ build (mro c) kw = Err TypeError).
  Proof. intros c kw D. apply accepts; [apply mro_named|]. intros k. apply reach_accepted. auto. Qed.
  Theorem torch_accepts : forall c (kw : kwargs), dynamic c ->
    ((exists o, build (mro_torch c) kw = Ok o) <-> forall k, In k (keys kw) -> k = "device" \/ accepted c k) /\
    ((exists o, build (mro_torch c) kw = Ok o) \/ build (mro_torch c) kw = Err TypeError).
  Proof. intros c kw D. apply accepts; [apply mro_torch_named|]. intros k. apply reach_torch. auto. Qed.

  (** an accepted keyword list never has compute_consensus for HyperSurfaceCBO *)
  Lemma assoc_keys : forall k (kw : kwargs) v, assoc k kw = Some v -> In k (keys kw).
  Proof.
    induction kw as [|[q w] kw IH]; intros v H; [discriminate|]. cbn in H. destruct (String.eqb_spec k q); [left; auto|]. right. eauto.
  Qed.

  (** the value of a shared parameter, as a function of what [kw] gives *)
  Definition value_from (c : cname) (g : string -> option val) (p : string) : val :=
    match g p with
    | None => default_of c p
    | Some PyNone => match c, p with
                     | CBS, "track_args" | PolarCBO, "compute_consensus" => default_of c p
                     | _, _ => PyNone
                     end
    | Some v => v
    end.
  Lemma values_from : forall tor c (g : string -> option val) p, dynamic c -> In p (cbx_names ++ particle_names) ->
    (c = HyperSurfaceCBO -> g "compute_consensus" = None) ->
    value (if tor : bool then mro_torch c else mro c) (if mem p cbx_names then CBXDynamic else ParticleDynamic) g p = value_from c g p.
  Proof.
    intros tor c g p (D1 & D2 & D3) Hp HH. cbn [app cbx_names particle_names In] in Hp.
    destruct c; try congruence; try (specialize (HH eq_refl)); literal Hp; destruct tor; lazy; try reflexivity;
      match goal with |- context [g ?q] => destruct (g q) as [[| |]|]; try reflexivity; try discriminate HH end.
  Qed.

  Lemma numpy_values : forall c (kw : kwargs) r p, dynamic c -> call (mro c) kw = Ok r -> In p (cbx_names ++ particle_names) ->
    at_class (if mem p cbx_names then CBXDynamic else ParticleDynamic) r p = value_of c kw p.
  Proof.
    intros c kw r p D H Hp. pose proof (numpy_accepts c kw D) as [[A _] _].
    assert (B : forall k, In k (keys kw) -> accepted c k) by (apply A; apply build_call; eauto). clear A.
    rewrite (call_value (mro c)) with (kw := kw) by (auto; destruct (mem p cbx_names); cbn; auto).
    apply (values_from false); auto. intros E. destruct (assoc "compute_consensus" kw) eqn:Ea; auto.
    apply assoc_keys, B in Ea. destruct Ea as [_ Ea]. exfalso. auto.
  Qed.
  Lemma torch_values : forall c (kw : kwargs) r p, dynamic c -> call (mro_torch c) kw = Ok r -> In p (cbx_names ++ particle_names) ->
    at_class (if mem p cbx_names then CBXDynamic else ParticleDynamic) r p = value_of c kw p.
  Proof.
    intros c kw r p D H Hp. pose proof (torch_accepts c kw D) as [[A _] _].
    assert (B : forall k, In k (keys kw) -> k = "device" \/ accepted c k) by (apply A; apply build_call; eauto). clear A.
    rewrite (call_value (mro_torch c)) with (kw := kw) by (auto; destruct (mem p cbx_names); cbn; auto).
    apply (values_from true); auto. intros E. destruct (assoc "compute_consensus" kw) eqn:Ea; auto.
    apply assoc_keys, B in Ea. destruct Ea as [Ea|[_ Ea]]; [discriminate Ea|exfalso; auto].
  Qed.
End Facts.
